(** What the importer's scores read as once they are written: events, voices and
    parts. *)
From Coq Require Import String ZArith List Bool Lia.
From Verif Require Import Base Num ModelPitch ModelDuration ModelTypes ModelLisp ModelScan SpecScan ProofScan ModelParser SpecParser ProofParser ProofParseText
  ModelAst ModelFormat SpecFormat ProofFormat ProofFormatTok ProofFormatLisp ProofFormatNote ProofFormatEvent ProofFormatMain ProofFormatTop
  ModelGen SpecGen SpecImporter ProofGen SpecWritten ProofWritten1.
Import ListNotations.
Local Open Scope list_scope.
Local Open Scope Z_scope.

Section Written.
Context {N : Num}.
Variable fmt : num -> list rune.
Variable order : list ModelPitch.letter.
Notation fine := (fine fmt).
Notation u_node := (u_node order).
Notation read_note := (read_note fmt).

(** ** Events as they are read *)
Fixpoint read_more (es : list update) : Prop :=
  match es with
  | [] => False
  | [n] => read_note n
  | x :: t => (read_note x \/ octave_change x) /\ read_more t
  end.
Definition read_event (u : update) : Prop :=
  match u with
  | UBarline => True
  | UPrim (Attr (POctave _)) | UPrim (Attr POctUp) | UPrim (Attr POctDown) => octave_change u
  | UPrim (Attr (PDynamic m)) => In m (map fst dynamic_volumes)
  | UPrim (Attr (PKey k)) => plain_key k
  | ULisp els => exists x, els = [LSym "transpose"; LNum x] /\ exists neg, reads_back fmt neg x
  | UChord (n :: t) => read_note n /\ read_more t
  | UChord [] => False
  | _ => read_note u
  end.
Fixpoint run_toks (es : list update) : list token :=
  match es with
  | [] => []
  | [n] => note_toks n
  | x :: t =>
      match x with
      | UPrim (Attr (POctave k)) => T (TOctSet k) :: run_toks t
      | UPrim (Attr POctUp) => T TOctUp :: run_toks t
      | UPrim (Attr POctDown) => T TOctDown :: run_toks t
      | _ => note_toks x ++ T TSeparator :: run_toks t
      end
  end.
Definition key_lit (k : keysig) : list rune := key_text order k.
Definition toks (u : update) : list token :=
  match u with
  | UBarline => [T TBarline]
  | UPrim (Attr (POctave k)) => [T (TOctSet k)]
  | UPrim (Attr POctUp) => [T TOctUp]
  | UPrim (Attr POctDown) => [T TOctDown]
  | UPrim (Attr (PDynamic m)) => [T TLParen; W TSymbol (runes_of m); T TRParen]
  | UPrim (Attr (PKey k)) => [T TLParen; W TSymbol (runes "key-signature"); W (TString (key_lit k)) (quote_mark :: key_lit k ++ [quote_mark]); T TRParen]
  | ULisp [_; LNum x] => [T TLParen; W TSymbol (runes_of "transpose"); T (TNumber x); T TRParen]
  | UChord (n :: t) => note_toks n ++ T TSeparator :: run_toks t
  | _ => note_toks u
  end.
Definition ends (u : update) : bool := match u with UChord es => ends_in_length (last es UNil) | _ => ends_in_length u end.

(** The first token of an event. *)
Definition opener (k : tok) : bool := match k with TNote _ | TRest | TOctSet _ | TOctUp | TOctDown | TBarline | TLParen => true | _ => false end.
Lemma note_first u : read_note u -> exists t ts, note_toks u = t :: ts /\ match tkind t with TNote _ | TRest => true | _ => false end = true.
Proof.
  intros H. destruct u as [[p d s|d|x|x]| | | | | | | | | | | | | | |]; try contradiction.
  - destruct p; [|contradiction]. cbn. eauto.
  - cbn. eauto.
Qed.
Lemma first u : read_event u -> exists t ts, toks u = t :: ts /\ opener (tkind t) = true /\ (u <> UBarline -> tkind t <> TBarline).
Proof.
  intros H.
  assert (G : read_note u -> toks u = note_toks u -> exists t ts, toks u = t :: ts /\ opener (tkind t) = true /\ (u <> UBarline -> tkind t <> TBarline)).
  { intros R ->. destruct (note_first u R) as (t & ts & -> & K). exists t, ts. split; [reflexivity|]. destruct (tkind t); try discriminate; split; auto; discriminate. }
  destruct u as [[p d s|d|x|x]| | | |es| | | | | | | | | | |]; try (apply G; [exact H|reflexivity]); try contradiction.
  - destruct x; try contradiction; cbn; (do 2 eexists; split; [reflexivity|]; split; [reflexivity|discriminate]).
  - destruct H as (x & -> & _). cbn. do 2 eexists; split; [reflexivity|]; split; [reflexivity|discriminate].
  - cbn. do 2 eexists; split; [reflexivity|]; split; [reflexivity|congruence].
  - destruct es as [|n es]; [contradiction|]. destruct H as [Hn _]. destruct (note_first n Hn) as (t & ts & E & K). cbn [toks]. rewrite E. exists t. eexists. split; [reflexivity|].
    destruct (tkind t); try discriminate; split; auto; discriminate.
Qed.

(** ** Chords *)
Lemma octave_node u : octave_change u -> (exists k, u = UPrim (Attr (POctave k)) /\ small k) \/ u = UPrim (Attr POctUp) \/ u = UPrim (Attr POctDown).
Proof. destruct u as [[p d s|d|x|x]| | | | | | | | | | | | | | |]; try contradiction. destruct x; try contradiction; auto. intros H. left. eexists. split; [reflexivity|exact H]. Qed.
Lemma run_at t r : read_more t -> quiet r = true -> no_chord r -> (ends_in_length (last t UNil) = true -> kind r <> TBarline) ->
  exists a ns r2, between_notes (run_toks t ++ r) a r2 /\ notes_at r2 ns 0 r /\ map u_node t = a ++ ns.
Proof.
  intros H Q C B. induction t as [|x t IH]; [contradiction|]. destruct t as [|y t].
  - cbn [run_toks read_more last] in *. destruct (note_reads fmt order x r H Q B) as [_ R]. exists [], [u_node x], (note_toks x ++ r). split.
    + destruct (note_first x H) as (h & ts & -> & K). apply bn_end; cbn; intros; destruct (tkind h); discriminate.
    + split; [|reflexivity]. apply na_one; [exact R| |exact C]. intros k E. apply quiet_gentle in Q. rewrite E in Q. discriminate.
  - destruct H as [Hx Ht]. destruct (IH Ht B) as (a & ns & r2 & Bn & Na & E).
    destruct Hx as [Hx|Hx].
    + exists [], (u_node x :: a ++ ns), (note_toks x ++ T TSeparator :: run_toks (y :: t) ++ r).
      assert (Ex : run_toks (x :: y :: t) = note_toks x ++ T TSeparator :: run_toks (y :: t)).
      { destruct x as [[p d s|d|z|z]| | | | | | | | | | | | | | |]; try contradiction; reflexivity. }
      rewrite Ex, <- app_assoc. cbn [app]. split; [|split].
      * destruct (note_first x Hx) as (h & ts & -> & K). apply bn_end; cbn; intros; destruct (tkind h); discriminate.
      * change (u_node x :: a ++ ns) with (u_node x :: [] ++ a ++ ns). eapply na_more with (s := T TSeparator); [|apply bn_end; cbn; intros; discriminate|reflexivity|exact Bn|exact Na].
        apply (note_reads fmt order x _ Hx); [reflexivity|intros _; cbn; discriminate].
      * cbn [map app] in E |- *. now rewrite E.
    + exists (u_node x :: a), ns, r2. split; [|split; [exact Na|]].
      * destruct (octave_node x Hx) as [(k & -> & Sk)|[->| ->]].
        -- change (run_toks (UPrim (Attr (POctave k)) :: y :: t)) with (T (TOctSet k) :: run_toks (y :: t)). apply (bn_set (T (TOctSet k)) k); [reflexivity|exact Bn].
        -- change (run_toks (UPrim (Attr POctUp) :: y :: t)) with (T TOctUp :: run_toks (y :: t)). apply (bn_up (T TOctUp)); [reflexivity|exact Bn].
        -- change (run_toks (UPrim (Attr POctDown) :: y :: t)) with (T TOctDown :: run_toks (y :: t)). apply (bn_down (T TOctDown)); [reflexivity|exact Bn].
      * change (map u_node (x :: y :: t)) with (u_node x :: map u_node (y :: t)). now rewrite E.
Qed.

Definition gens (u : update) : Prop := is_event u /\ gen order u = ROk (u_node u).
Lemma gens_done es : Forall gens es -> forall t done, inner_events order (es ++ t) (done, None) = inner_events order t (done ++ map u_node es, None).
Proof.
  induction 1 as [|u es [I0 G] F IH]; intros t done; [cbn; now rewrite app_nil_r|]. cbn [app]. rewrite (inner_event order u _ _ _ I0 G). cbn [add_event]. rewrite IH.
  cbn [map]. now rewrite <- app_assoc.
Qed.
Lemma note_gens u : read_note u -> gens u.
Proof.
  intros H. split.
  - destruct u as [[p d s|d|x|x]| | | | | | | | | | | | | | |]; try contradiction; exact I.
  - apply (note_reads fmt order u [T TEOF] H); [reflexivity|discriminate].
Qed.
Lemma more_gens t : read_more t -> Forall gens t.
Proof.
  induction t as [|x t IH]; [constructor|]. destruct t as [|y t]; [intros H; constructor; [now apply note_gens|constructor]|]. intros [Hx Ht]. constructor; [|auto].
  destruct Hx as [Hx|Hx]; [now apply note_gens|]. destruct (octave_node x Hx) as [(k & -> & _)|[->| ->]]; (split; [exact I|reflexivity]).
Qed.
Lemma chord_gens es : Forall gens es -> gen order (UChord es) = ROk (branch ChordNode (map u_node es)).
Proof. intros F. rewrite gen_chord. pose proof (gens_done es F [] []) as X. rewrite app_nil_r in X. rewrite X. cbn. now rewrite app_nil_r. Qed.

Lemma dynamic_symbol m : In m (map fst dynamic_volumes) -> symbol_text (runes_of m) /\ ~ In newline (runes_of m).
Proof.
  intros H. cbn in H.
  repeat (destruct H as [<-|H]; [split; [do 2 eexists; split; [vm_compute; reflexivity|]; split; [reflexivity|]; split; [reflexivity|]; split; [vm_compute; intuition discriminate|repeat constructor]|vm_compute; intuition discriminate]|]).
  contradiction.
Qed.
Lemma key_chars k c : In c (key_lit k) -> c <> newline /\ c <> quote_mark.
Proof.
  unfold key_lit, key_text.
  assert (G : forall ws, (forall w, In w ws -> forall x, In x w -> x <> newline /\ x <> quote_mark) -> In c (join_words ws) -> c <> newline /\ c <> quote_mark).
  { induction ws as [|w ws IH]; [contradiction|]. intros H I0. destruct ws as [|w2 ws]; [apply (H w); [now left|exact I0]|].
    change (join_words (w :: w2 :: ws)) with (w ++ space :: join_words (w2 :: ws)) in I0. apply in_app_or in I0 as [I0|[<-|I0]].
    - apply (H w); [now left|exact I0].
    - split; discriminate.
    - apply IH; [|exact I0]. intros w' Iw. apply H. now right. }
  apply G. intros w Iw x Ix. apply in_flat_map in Iw as (l & _ & Iw). destruct (ks_get k l) as [accs|]; [|destruct Iw]. destruct Iw as [<-|[]].
  destruct Ix as [<-|Ix]; [destruct l; split; discriminate|]. apply in_map_iff in Ix as (a & <- & _). destruct a; split; discriminate.
Qed.

Ltac plain_good := split; [cbn; auto|repeat split; cbn; auto; discriminate].
Lemma run_good t : read_more t -> Forall good (run_toks t) /\ Forall fine (map u_node t).
Proof.
  induction t as [|x t IH]; [contradiction|]. destruct t as [|y t].
  - intros H. split; [now apply (note_good fmt)|]. constructor; [now apply note_fine|constructor].
  - intros [Hx Ht]. destruct (IH Ht) as [G F]. destruct Hx as [Hx|Hx].
    + assert (Ex : run_toks (x :: y :: t) = note_toks x ++ T TSeparator :: run_toks (y :: t)).
      { destruct x as [[p d s|d|z|z]| | | | | | | | | | | | | | |]; try contradiction; reflexivity. }
      rewrite Ex. split; [apply Forall_app; split; [now apply (note_good fmt)|constructor; [plain_good|exact G]]|]. constructor; [now apply note_fine|exact F].
    + destruct (octave_node x Hx) as [(k & -> & Sk)|[->| ->]]; split.
      * change (run_toks (UPrim (Attr (POctave k)) :: y :: t)) with (T (TOctSet k) :: run_toks (y :: t)). constructor; [plain_good|exact G].
      * constructor; [|exact F]. apply leaf_fine; [exact I|discriminate].
      * change (run_toks (UPrim (Attr POctUp) :: y :: t)) with (T TOctUp :: run_toks (y :: t)). constructor; [plain_good|exact G].
      * constructor; [|exact F]. apply branch_fine; [discriminate|constructor].
      * change (run_toks (UPrim (Attr POctDown) :: y :: t)) with (T TOctDown :: run_toks (y :: t)). constructor; [plain_good|exact G].
      * constructor; [|exact F]. apply branch_fine; [discriminate|constructor].
Qed.
Lemma more_length t : read_more t -> t <> [].
Proof. destruct t; [contradiction|discriminate]. Qed.

Lemma symbol_ok s : symbol_text s -> ~ In newline s -> good (W TSymbol s).
Proof. intros A B. split; [exact A|]. repeat split; [exact B|discriminate]. Qed.

(** ** One event *)
Definition sexp (u : update) : Prop := match u with UPrim (Attr (PDynamic _)) | UPrim (Attr (PKey _)) | ULisp _ => True | _ => False end.
Lemma sexp_reads u : read_event u -> sexp u -> gens u /\ Forall good (toks u) /\ fine (u_node u) /\ exists ts, toks u = T TLParen :: ts /\ forall r, form (toks u ++ r) (u_node u) r.
Proof.
  intros H S. destruct u as [[p d s|d|x|x]| |els| | | | | | | | | | | | |]; try contradiction.
  - destruct x; try (exfalso; exact S).
    + destruct (dynamic_symbol _ H) as [Y Z]. split; [split; [exact I|reflexivity]|]. split; [constructor; [plain_good|]; constructor; [now apply symbol_ok|]; constructor; [plain_good|constructor]|].
      split; [apply branch_fine; [discriminate|]; constructor; [|constructor]; apply leaf_fine; [exact I|discriminate]|].
      eexists. split; [reflexivity|]. intros r. cbn [toks app]. apply form_list; [reflexivity|]. eapply forms_form; [apply (form_symbol (W TSymbol _)); reflexivity|apply forms_end; reflexivity].
    + split; [split; [exact I|reflexivity]|]. split.
      { constructor; [plain_good|]. constructor; [apply symbol_ok; [do 2 eexists; split; [vm_compute; reflexivity|]; split; [reflexivity|]; split; [reflexivity|]; split; [vm_compute; intuition discriminate|repeat constructor]|vm_compute; intuition discriminate]|].
        constructor; [|constructor; [plain_good|constructor]]. split; [split; [intros X; destruct (key_chars _ _ X); congruence|reflexivity]|]. split; [reflexivity|]. split; [|discriminate].
        intros [X|X]; [discriminate|]. apply in_app_or in X as [X|[X|[]]]; [destruct (key_chars _ _ X); congruence|discriminate]. }
      split; [apply branch_fine; [discriminate|]; constructor; [apply leaf_fine; [exact I|discriminate]|]; constructor; [apply leaf_fine; [exact I|discriminate]|constructor]|].
      eexists. split; [reflexivity|]. intros r. cbn [toks app]. apply form_list; [reflexivity|].
      eapply forms_form; [apply (form_symbol (W TSymbol (runes "key-signature"))); reflexivity|].
      eapply forms_form; [apply (form_string (W (TString _) _)); reflexivity|apply forms_end; reflexivity].
  - destruct H as (x & -> & neg & R). split; [split; [exact I|reflexivity]|]. split.
    + constructor; [plain_good|]. constructor; [apply symbol_ok; [do 2 eexists; split; [vm_compute; reflexivity|]; split; [reflexivity|]; split; [reflexivity|]; split; [vm_compute; intuition discriminate|repeat constructor]|vm_compute; intuition discriminate]|].
      constructor; [plain_good|constructor; [plain_good|constructor]].
    + split; [apply branch_fine; [discriminate|]; constructor; [apply leaf_fine; [exact I|discriminate]|]; constructor; [|constructor]; apply leaf_fine; [exists neg; exact R|discriminate]|].
      eexists. split; [reflexivity|]. intros r. cbn [toks app]. apply form_list; [reflexivity|].
      eapply forms_form; [apply (form_symbol (W TSymbol (runes_of "transpose"))); reflexivity|].
      eapply forms_form; [apply (form_number (T (TNumber x)) x); reflexivity|apply forms_end; reflexivity].
Qed.
Lemma event_cases u : read_event u -> sexp u \/ u = UBarline \/ octave_change u \/
  (read_note u /\ toks u = note_toks u /\ ends u = ends_in_length u) \/ exists n t, u = UChord (n :: t) /\ read_note n /\ read_more t.
Proof.
  intros H. destruct u as [[p d s|d|x|x]| | | |es| | | | | | | | | | |]; try contradiction; auto.
  - right; right; right; left. split; [exact H|split; reflexivity].
  - right; right; right; left. split; [exact H|split; reflexivity].
  - destruct x; try contradiction; cbn [sexp]; auto.
  - left. exact I.
  - destruct es as [|n t]; [contradiction|]. right; right; right; right. exists n, t. split; [reflexivity|exact H].
Qed.
Lemma reads u : read_event u -> gens u /\ Forall good (toks u) /\ fine (u_node u) /\
  forall r, quiet r = true -> no_chord r -> (ends u = true -> kind r <> TBarline) -> event (toks u ++ r) (u_node u) r.
Proof.
  intros H. destruct (event_cases u H) as [S|[->|[O|[(R & E & En)|(n & t & -> & Hn & Ht)]]]].
  - destruct (sexp_reads u H S) as (A & B & C & ts & E & F). split; [exact A|]. split; [exact B|]. split; [exact C|]. intros r Q _ _.
    apply ev_sexp with (u_node u) r; [rewrite E; reflexivity|apply F|]. apply rep_once. intros k K. apply quiet_gentle in Q. rewrite K in Q. discriminate.
  - split; [split; [exact I|reflexivity]|]. split; [repeat constructor; cbn; auto; discriminate|]. split; [apply branch_fine; [discriminate|constructor]|]. intros r _ _ _. apply ev_barline. reflexivity.
  - destruct (octave_node u O) as [(k & -> & Sk)|[->| ->]].
    + split; [split; [exact I|reflexivity]|]. split; [constructor; [plain_good|constructor]|]. split; [apply leaf_fine; [exact I|discriminate]|]. intros r _ _ _. apply (ev_octave_set (T (TOctSet k))). reflexivity.
    + split; [split; [exact I|reflexivity]|]. split; [constructor; [plain_good|constructor]|]. split; [apply branch_fine; [discriminate|constructor]|]. intros r _ _ _. apply (ev_octave_up (T TOctUp)). reflexivity.
    + split; [split; [exact I|reflexivity]|]. split; [constructor; [plain_good|constructor]|]. split; [apply branch_fine; [discriminate|constructor]|]. intros r _ _ _. apply (ev_octave_down (T TOctDown)). reflexivity.
  - rewrite E, En. split; [now apply note_gens|]. split; [now apply (note_good fmt)|]. split; [now apply note_fine|]. intros r Q C B.
    destruct (note_reads fmt order u r R Q B) as [_ X]. change (u_node u) with (maybe_times (one_or_chord [u_node u]) 0). apply ev_notes. apply na_one; auto.
    intros k K. apply quiet_gentle in Q. rewrite K in Q. discriminate.
  - assert (G : Forall gens (n :: t)) by (constructor; [now apply note_gens|now apply more_gens]). pose proof (chord_gens _ G) as E.
    assert (En : u_node (UChord (n :: t)) = branch ChordNode (map u_node (n :: t))) by (unfold ProofWritten1.u_node at 1; rewrite E; reflexivity).
    destruct (run_good t Ht) as [Gt Ft].
    split; [split; [exact I|rewrite En; exact E]|]. split; [cbn [toks]; apply Forall_app; split; [now apply (note_good fmt)|constructor; [plain_good|exact Gt]]|].
    split; [rewrite En; apply branch_fine; [discriminate|constructor; [now apply note_fine|exact Ft]]|]. intros r Q C B.
    assert (B' : ends_in_length (last t UNil) = true -> kind r <> TBarline).
    { intros X. apply B. cbn [ends]. destruct t; [contradiction|exact X]. }
    destruct (run_at t r Ht Q C B') as (a & ns & r2 & Bn & Na & Em).
    rewrite En. cbn [map]. rewrite Em. cbn [toks]. rewrite <- app_assoc. cbn [app].
    assert (NE : a ++ ns <> []) by (rewrite <- Em; destruct t; [contradiction|discriminate]).
    replace (branch ChordNode (u_node n :: a ++ ns)) with (maybe_times (one_or_chord (u_node n :: [] ++ a ++ ns)) 0).
    2:{ cbn [app]. unfold maybe_times, one_or_chord. destruct (a ++ ns); [congruence|reflexivity]. }
    apply ev_notes. eapply na_more with (s := T TSeparator); [|apply bn_end; cbn; intros; discriminate|reflexivity|exact Bn|exact Na].
    apply (note_reads fmt order n _ Hn); [reflexivity|intros _; cbn; discriminate].
Qed.

(** ** Events one after the other *)
Definition toks_all (l : list update) : list token := flat_map toks l.
Fixpoint apart (l : list update) : Prop :=
  match l with
  | [] => True
  | u :: t => (ends u = true -> match t with UBarline :: _ => False | _ => True end) /\ apart t
  end.
Definition halt (r : list token) : Prop := match kind r with TEOF | TVoice _ | TName => True | _ => False end.
Lemma follows l r : Forall read_event l -> halt r -> quiet (toks_all l ++ r) = true /\ no_chord (toks_all l ++ r).
Proof.
  intros F S. induction F as [|u l H F [IQ IC]].
  - cbn [toks_all flat_map app]. unfold halt in S. destruct r as [|t r]; [split; [reflexivity|exists [], []; split; [apply bn_end; discriminate|discriminate]]|]. cbn in S.
    split; [cbn; destruct (tkind t); auto; contradiction|]. exists [], (t :: r). split; [apply bn_end; cbn; intros; destruct (tkind t); try contradiction; discriminate|].
    cbn. destruct (tkind t); try contradiction; discriminate.
  - cbn [toks_all flat_map]. rewrite <- app_assoc. fold (toks_all l). destruct (event_cases u H) as [X|[->|[O|[(R & E & En)|(n & t & -> & Hn & Ht)]]]].
    + destruct (sexp_reads u H X) as (_ & _ & _ & ts & E & Fo). specialize (Fo (toks_all l ++ r)). rewrite E in *. cbn [app] in *. split; [reflexivity|].
      destruct IC as (ns & r' & Bn & K). exists (u_node u :: ns), r'. split; [|exact K]. eapply bn_sexp; [reflexivity|exact Fo|exact Bn].
    + cbn. split; [exact IQ|]. eexists [], _. split; [apply bn_end; cbn; intros; discriminate|discriminate].
    + destruct IC as (ns & r' & Bn & K). destruct (octave_node u O) as [(k & -> & Sk)|[->| ->]]; (split; [reflexivity|]); eexists (_ :: ns), r'; (split; [|exact K]).
      * apply (bn_set (T (TOctSet k)) k); [reflexivity|exact Bn].
      * apply (bn_up (T TOctUp)); [reflexivity|exact Bn].
      * apply (bn_down (T TOctDown)); [reflexivity|exact Bn].
    + rewrite E. destruct (note_first u R) as (t & ts & -> & K). cbn [app]. split; [cbn; destruct (tkind t); try discriminate; reflexivity|].
      eexists [], _. split; [apply bn_end; cbn; intros; destruct (tkind t); discriminate|]. cbn. destruct (tkind t); discriminate.
    + cbn [toks]. destruct (note_first n Hn) as (h & ts & -> & K). cbn [app]. split; [cbn; destruct (tkind h); try discriminate; reflexivity|].
      eexists [], _. split; [apply bn_end; cbn; intros; destruct (tkind h); discriminate|]. cbn. destruct (tkind h); discriminate.
Qed.
Lemma head_kind u r : read_event u -> opener (kind (toks u ++ r)) = true.
Proof. intros H. destruct (first u H) as (t & ts & -> & K & _). exact K. Qed.
Lemma next_bar l r : Forall read_event l -> halt r -> match l with UBarline :: _ => False | _ => True end -> kind (toks_all l ++ r) <> TBarline.
Proof.
  intros F S H. destruct F as [|u l Hu F]; [cbn; unfold halt in S; destruct (kind r); try contradiction; discriminate|].
  destruct (first u Hu) as (t & ts & E & _ & K). cbn [toks_all flat_map]. rewrite E. cbn. apply K. intros ->. contradiction.
Qed.
Lemma body_of_voice l r : Forall read_event l -> apart l -> halt r -> ends_voice r = true -> voice_body (toks_all l ++ r) (map u_node l) r.
Proof.
  intros F A S E. induction F as [|u l H F IH]; [now constructor|]. destruct A as [A1 A2]. destruct (follows l r F S) as [Q C].
  cbn [toks_all flat_map map]. rewrite <- app_assoc. fold (toks_all l). eapply vb_event; [| |apply IH, A2].
  - pose proof (head_kind u (toks_all l ++ r) H) as K. unfold ends_voice, looks_like_part. destruct (kind (toks u ++ toks_all l ++ r)); try discriminate; reflexivity.
  - apply reads; auto. intros En. exact (next_bar l r F S (A1 En)).
Qed.
Lemma body_of_part l r ns r' : Forall read_event l -> apart l -> halt r -> part_body r ns r' -> part_body (toks_all l ++ r) (map u_node l ++ ns) r'.
Proof.
  intros F A S E. induction F as [|u l H F IH]; [exact E|]. destruct A as [A1 A2]. destruct (follows l r F S) as [Q C].
  cbn [toks_all flat_map map app]. rewrite <- app_assoc. fold (toks_all l). pose proof (head_kind u (toks_all l ++ r) H) as K. eapply pb_event; [| | |apply IH, A2].
  - intros X. rewrite X in K. discriminate.
  - unfold looks_like_part. destruct (kind (toks u ++ toks_all l ++ r)); try discriminate; reflexivity.
  - apply reads; auto. intros En. exact (next_bar l r F S (A1 En)).
Qed.
Lemma all_good l : Forall read_event l -> Forall good (toks_all l).
Proof. induction 1 as [|u l H F IH]; [constructor|]. cbn. apply Forall_app. split; [apply reads, H|exact IH]. Qed.
Lemma all_fine l : Forall read_event l -> Forall fine (map u_node l).
Proof. induction 1 as [|u l H F IH]; [constructor|]. constructor; [apply reads, H|exact IH]. Qed.

(** ** Voices *)
Definition read_voice (v : voice) : Prop := 0 < fst v <= max_int32 /\ Forall read_event (snd v) /\ apart (snd v).
Definition voices_toks (vs : list voice) : list token := flat_map (fun v => T (TVoice (fst v)) :: toks_all (snd v)) vs.
Definition v_node (v : voice) : node := voice_node (fst v) (map u_node (snd v)).
Lemma voices_ended vs : forall v r, read_voice v -> Forall read_voice vs ->
  voices_at (fst v) (toks_all (snd v) ++ voices_toks vs ++ T (TVoice 0) :: r) (map v_node (v :: vs) ++ [branch VoiceGroupEndMarkerNode []]) r.
Proof.
  induction vs as [|w vs IH]; intros v r (Hn & He & Ha) F.
  - cbn [voices_toks flat_map app map]. apply va_end with (T (TVoice 0)); [apply body_of_voice; auto; exact I|reflexivity].
  - inversion F as [|? ? Hw F']; subst. cbn [voices_toks flat_map map app]. rewrite <- app_assoc. fold (voices_toks vs).
    eapply va_more with (t := T (TVoice (fst w))) (m := fst w); [apply body_of_voice; auto; exact I|reflexivity|destruct Hw as [Hw _]; lia|].
    apply (IH w r Hw F').
Qed.
Lemma voices_lasting vs : forall v r, read_voice v -> Forall read_voice vs -> halt r -> ends_voice r = true -> (forall m, kind r <> TVoice m) ->
  voices_at (fst v) (toks_all (snd v) ++ voices_toks vs ++ r) (map v_node (v :: vs)) r.
Proof.
  induction vs as [|w vs IH]; intros v r (Hn & He & Ha) F S E K.
  - cbn [voices_toks flat_map app map]. apply va_last; [now apply body_of_voice|exact K].
  - inversion F as [|? ? Hw F']; subst. cbn [voices_toks flat_map map app]. rewrite <- app_assoc. fold (voices_toks vs).
    eapply va_more with (t := T (TVoice (fst w))) (m := fst w); [apply body_of_voice; auto; exact I|reflexivity|destruct Hw as [Hw _]; lia|].
    apply (IH w r Hw F' S E K).
Qed.
Lemma voices_good vs : Forall read_voice vs -> Forall good (voices_toks vs).
Proof.
  induction 1 as [|v vs (Hn & He & _) F IH]; [constructor|]. cbn. constructor; [split; [cbn; unfold small; lia|repeat split; cbn; auto; discriminate]|].
  apply Forall_app. split; [now apply all_good|exact IH].
Qed.
Lemma v_fine v : read_voice v -> fine (v_node v).
Proof.
  intros (Hn & He & _). apply branch_fine; [discriminate|]. constructor; [apply leaf_fine; [exact I|discriminate]|]. constructor; [|constructor].
  apply branch_fine; [discriminate|]. now apply all_fine.
Qed.
End Written.

(** What the importer's scores read as once they are written: the grammar's side. *)
From Coq Require Import String ZArith List Bool Lia.
From Verif Require Import Base Num ModelPitch ModelDuration ModelTypes ModelLisp ModelScan SpecScan ProofScan ModelParser SpecParser ProofParser ProofParseText
  ModelAst ModelFormat SpecFormat ProofFormat ProofFormatTok ProofFormatLisp ProofFormatNote ProofFormatEvent ProofFormatMain ProofFormatTop
  ModelGen SpecGen SpecImporter ProofGen SpecWritten.
Import ListNotations.
Local Open Scope list_scope.
Local Open Scope Z_scope.

Section Written.
Context {N : Num}.
Variable fmt : num -> list rune.
Variable order : list ModelPitch.letter.
Notation fine := (fine fmt).

(** ** Tokens *)
Definition T (k : tok) : token := Token k [] 1 1.
Definition W (k : tok) (t : list rune) : token := Token k t 1 1.
(** Tokens that are valid, on one line, without repeat. *)
Definition good (t : token) : Prop := valid t /\ tline t = 1 /\ ~ In newline (ttext t) /\ tkind t <> TRepeat 0.

Lemma good_fit ts : Forall good ts -> fit ts.
Proof.
  intros H. split; [eapply Forall_impl; [|exact H]; intros t G; apply G|]. split.
  - induction H as [|t ts G H IH]; [exact I|]. destruct H as [|u ts G' H]; [exact I|]. cbn [lined]. split; [|exact IH].
    destruct G as (_ & A & B & _), G' as (_ & C & _). rewrite A, C.
    assert (E : filter (Z.eqb newline) (ttext t) = []).
    { destruct (filter (Z.eqb newline) (ttext t)) as [|x l] eqn:E; [reflexivity|]. exfalso. assert (X : In x (filter (Z.eqb newline) (ttext t))) by (rewrite E; now left).
      apply filter_In in X as [X Y]. apply Z.eqb_eq in Y. subst. auto. }
    rewrite E. cbn. lia.
  - intros (p & t & b & q & -> & Z & _). apply Forall_app in H as [_ H]. inversion H as [|? ? G]; subst. destruct G as (_ & _ & _ & G). auto.
Qed.

(** What may follow an event. *)
Definition gentle (k : tok) : bool :=
  match k with TNote _ | TRest | TOctSet _ | TOctUp | TOctDown | TBarline | TLParen | TEOF | TVoice _ | TName | TSeparator => true | _ => false end.
Fixpoint quiet (ts : list token) : bool :=
  match ts with
  | [] => true
  | t :: ts' => match tkind t with TBarline => quiet ts' | k => gentle k end
  end.
Lemma quiet_gentle ts : quiet ts = true -> gentle (kind ts) = true.
Proof. destruct ts as [|t ts]; [reflexivity|]. cbn. destruct (tkind t); auto; discriminate. Qed.
Lemma quiet_no_tie t r ns r' : tkind t = TTie -> quiet r = true -> ~ tied_length (t :: r) ns r'.
Proof.
  intros K Q H. inversion H as [t0 bs us l c r0 K0 B U L E1 E2]; subst.
  induction B as [|b bs Hb B IH].
  - destruct U as [|u us Hu U]; cbn in Q; [|rewrite Hu in Q; discriminate].
    destruct (tkind l); cbn in Q, L; discriminate.
  - cbn in Q. rewrite Hb in Q. apply IH; auto. constructor; auto.
Qed.
Lemma untied r ns r' : kind r <> TTie -> ~ tied_length r ns r'.
Proof. intros K H. inversion H; subst. cbn in K. congruence. Qed.

(** ** Durations *)
Definition comp_node (c : component) : node :=
  match c with
  | CLen d k => branch NoteLengthNode (leaf DenominatorNode (LitNum d) :: if 0 <? k then [leaf DotsNode (LitInt k)] else [])
  | _ => barline
  end.
Fixpoint more_toks (cs : list component) : list token :=
  match cs with
  | CLen x k :: t => T TTie :: T (TLength x k) :: more_toks t
  | _ :: t => T TBarline :: more_toks t
  | [] => []
  end.
Definition dur_toks (d : duration) : list token :=
  match d with
  | Some (CLen x k :: t) => T (TLength x k) :: more_toks t
  | _ => []
  end.
(** A duration as it is read: lengths, then barlines. *)
Definition read_duration (bars_ok : bool) (d : duration) : Prop :=
  match d with
  | None => True
  | Some cs => exists ls k, cs = ls ++ repeat CBar k /\ ls <> [] /\ Forall (plain_length fmt) ls /\ (bars_ok = false -> k = O)
  end.
Lemma bars_rest k r : kind r <> TBarline -> (forall ns r', ~ tied_length r ns r') ->
  duration_rest (more_toks (repeat CBar k) ++ r) (map comp_node (repeat CBar k)) r.
Proof. intros A B. induction k as [|k IH]; cbn; [now constructor|]. apply dr_bar; [reflexivity|exact IH]. Qed.
Lemma lens_rest ls k r : Forall (plain_length fmt) ls -> kind r <> TBarline -> (forall ns r', ~ tied_length r ns r') ->
  duration_rest (more_toks (ls ++ repeat CBar k) ++ r) (map comp_node (ls ++ repeat CBar k)) r.
Proof.
  intros F A B. induction F as [|c ls H F IH]; [now apply bars_rest|]. destruct c as [x j| | | | |]; try contradiction.
  cbn [app more_toks map]. change (comp_node (CLen x j) :: map comp_node (ls ++ repeat CBar k)) with ([comp_node (CLen x j)] ++ map comp_node (ls ++ repeat CBar k)).
  eapply dr_tie; [|exact IH]. apply (tied (T TTie) [] [] (T (TLength x j))); auto; try reflexivity.
Qed.
Lemma rmapl_comps cs : Forall (fun c => match c with CLen _ _ | CBar => True | _ => False end) cs -> rmapl gen_component cs = ROk (map comp_node cs).
Proof. induction 1 as [|c cs H F IH]; [reflexivity|]. cbn. rewrite IH. destruct c; try contradiction; reflexivity. Qed.
Lemma read_comps ls k : Forall (plain_length fmt) ls -> Forall (fun c => match c with CLen _ _ | CBar => True | _ => False end) (ls ++ repeat CBar k).
Proof.
  intros F. apply Forall_app. split; [eapply Forall_impl; [|exact F]; intros [] H; try contradiction; exact I|]. apply Forall_forall. intros c I0. apply repeat_spec in I0. subst. exact I.
Qed.
Definition dur_nodes (d : duration) : list node := match d with None => [] | Some cs => [branch DurationNode (map comp_node cs)] end.
Lemma gen_dur b d : read_duration b d -> gen_duration d = ROk (dur_nodes d).
Proof.
  destruct d as [cs|]; [|reflexivity]. intros (ls & k & -> & NE & F & _). unfold gen_duration. destruct (ls ++ repeat CBar k) as [|c cs] eqn:E; [destruct ls; [congruence|discriminate]|].
  rewrite <- E, rmapl_comps by (now apply read_comps). reflexivity.
Qed.
Lemma dur_at b d r : read_duration b d -> length_node (kind r) = None -> (d <> None -> kind r <> TBarline) -> (d <> None -> forall ns r', ~ tied_length r ns r') ->
  duration_at (dur_toks d ++ r) (dur_nodes d) r.
Proof.
  destruct d as [cs|]; [|intros _ A _ _; now constructor]. intros (ls & k & -> & NE & F & _) _ A B. destruct F as [|c ls H F]; [congruence|].
  destruct c as [x j| | | | |]; try contradiction. cbn [app dur_toks dur_nodes map]. apply dur_some; [reflexivity|].
  apply lens_rest; [exact F|now apply A|now apply B].
Qed.
Lemma more_good ls k : Forall (plain_length fmt) ls -> Forall good (more_toks (ls ++ repeat CBar k)).
Proof.
  intros F. induction F as [|c ls H F IH].
  - induction k as [|k IH]; constructor; [|exact IH]. repeat split; cbn; auto; discriminate.
  - destruct c as [x j| | | | |]; try contradiction. cbn. constructor; [repeat split; cbn; auto; discriminate|]. constructor; [|exact IH].
    split; [cbn; apply H|]. repeat split; cbn; auto; discriminate.
Qed.
Lemma dur_good b d : read_duration b d -> Forall good (dur_toks d).
Proof.
  destruct d as [cs|]; [|constructor]. intros (ls & k & -> & NE & F & _). destruct F as [|c ls H F]; [congruence|]. destruct c as [x j| | | | |]; try contradiction.
  cbn. constructor; [|now apply more_good]. split; [cbn; apply H|]. repeat split; cbn; auto; discriminate.
Qed.
Lemma leaf_fine ty l : number_printed fmt (leaf ty l) -> nty (leaf (N := N) ty l) <> NoteNode -> fine (leaf ty l).
Proof. intros A B. apply fine_eq. split; [|constructor]. split; [exact A|]. intros [X _]. auto. Qed.
Lemma branch_fine ty ch : ty <> NoteNode -> Forall fine ch -> fine (branch ty ch).
Proof. intros A B. apply fine_eq. split; [|exact B]. split; [destruct ty; exact I|]. intros [X _]. auto. Qed.
Lemma comp_fine c : match c with CBar => True | _ => plain_length fmt c end -> fine (comp_node c).
Proof.
  destruct c as [x k| | | | |]; cbn; intros H; try contradiction; [|apply branch_fine; [discriminate|constructor]].
  apply branch_fine; [discriminate|]. constructor; [apply leaf_fine; [cbn; apply H|discriminate]|].
  destruct (0 <? k); repeat constructor. apply leaf_fine; [exact I|discriminate].
Qed.
Lemma dur_fine b d : read_duration b d -> Forall fine (dur_nodes d).
Proof.
  destruct d as [cs|]; [|constructor]. intros (ls & k & -> & NE & F & _). constructor; [|constructor]. apply branch_fine; [discriminate|].
  rewrite map_app. apply Forall_app. split.
  - apply Forall_map. eapply Forall_impl; [|exact F]. intros c H. apply comp_fine. destruct c; auto.
  - apply Forall_map. apply Forall_forall. intros c I0. apply repeat_spec in I0. subst. apply comp_fine. exact I.
Qed.

(** ** Notes *)
Definition acc_tok (a : accidental) : token := T (match a with Flat => TFlat | Natural => TNatural | Sharp => TSharp end).
Definition acc_toks (a : option (list accidental)) : list token := match a with None => [] | Some l => map acc_tok l end.
Definition acc_nodes (a : option (list accidental)) : list node := match a with None => [] | Some l => map gen_accidental l end.
Lemma accs_at a r : accidental_node (kind r) = None -> accs (acc_toks a ++ r) (acc_nodes a) r.
Proof.
  intros K. destruct a as [l|]; [|now constructor]. cbn. induction l as [|x l IH]; [now constructor|]. cbn. apply acc_one; [|exact IH]. destruct x; reflexivity.
Qed.
Definition note_toks (u : update) : list token :=
  match u with
  | UPrim (Note (PLetter l a) d s) => T (TNote (letter_char l)) :: acc_toks a ++ dur_toks d ++ (if s then [T TTie] else [])
  | UPrim (Rest d) => T TRest :: dur_toks d
  | _ => []
  end.
Definition read_note (u : update) : Prop :=
  match u with
  | UPrim (Note (PLetter _ accs) d s) => accs <> Some [] /\ read_duration (negb s) d
  | UPrim (Rest d) => read_duration true d
  | _ => False
  end.
Definition u_node (u : update) : node := match gen order u with ROk n => n | _ => barline end.

Lemma note_reads u r : read_note u -> quiet r = true -> (ends_in_length u = true -> kind r <> TBarline) ->
  gen order u = ROk (u_node u) /\ note_or_rest_at (note_toks u ++ r) (u_node u) r.
Proof.
  intros H Q B. pose proof (quiet_gentle _ Q) as G. unfold u_node.
  assert (K1 : length_node (kind r) = None) by (destruct (kind r); try discriminate; reflexivity).
  assert (K2 : accidental_node (kind r) = None) by (destruct (kind r); try discriminate; reflexivity).
  assert (K3 : kind r <> TTie) by (intros X; rewrite X in G; discriminate).
  destruct u as [[p d s|d|x|x]| | | | | | | | | | | | | | |]; try contradiction.
  - destruct p as [l a|]; [|contradiction]. destruct H as [Ha Hd]. cbn [gen gen_prim]. rewrite (gen_dur _ _ Hd). cbn [rmap rbind]. split; [reflexivity|].
    assert (E : match a with None => [] | Some [] => [] | Some ((_ :: _) as as_) => [branch NoteAccidentalsNode (map gen_accidental as_)] end =
                match acc_nodes a with [] => [] | _ => [branch (N := N) NoteAccidentalsNode (acc_nodes a)] end) by (destruct a as [[|]|]; reflexivity).
    destruct s.
    + match goal with |- note_or_rest_at _ ?n _ => change n with (branch NoteNode (branch NoteLetterAndAccidentalsNode (leaf NoteLetterNode (LitRune (letter_char l)) :: match a with None => [] | Some [] => [] | Some ((_ :: _) as as_) => [branch NoteAccidentalsNode (map gen_accidental as_)] end) :: dur_nodes d ++ [branch TieNode []])) end.
      rewrite E. cbn [note_toks app]. rewrite <- !app_assoc. cbn [app].
      apply nr_slurred with (r1 := dur_toks d ++ T TTie :: r) (u := T TTie); [reflexivity| | |reflexivity].
      * apply accs_at. destruct d as [[|[] ?]|]; reflexivity.
      * eapply dur_at; [exact Hd|reflexivity|discriminate|]. intros _ ns r'. now apply quiet_no_tie.
    + match goal with |- note_or_rest_at _ ?n _ => change n with (branch NoteNode (branch NoteLetterAndAccidentalsNode (leaf NoteLetterNode (LitRune (letter_char l)) :: match a with None => [] | Some [] => [] | Some ((_ :: _) as as_) => [branch NoteAccidentalsNode (map gen_accidental as_)] end) :: dur_nodes d ++ [])) end.
      rewrite E. cbn [note_toks app]. rewrite app_nil_r, <- !app_assoc.
      apply nr_note with (r1 := dur_toks d ++ r); [reflexivity| | |exact K3].
      * apply accs_at. destruct d as [[|[] ?]|]; cbn; auto.
      * eapply dur_at; [exact Hd|exact K1| |].
        -- intros D. apply B. destruct d; [reflexivity|congruence].
        -- intros _ ns r'. now apply untied.
  - cbn [gen gen_prim]. rewrite (gen_dur _ _ H). cbn [rmap rbind]. split; [reflexivity|]. cbn [note_toks app]. apply nr_rest; [reflexivity|].
    eapply dur_at; [exact H|exact K1| |].
    + intros D. apply B. destruct d; [reflexivity|congruence].
    + intros _ ns r'. now apply untied.
Qed.
Lemma letter_range l : 97 <= letter_char l <= 103.
Proof. destruct l; cbn; lia. Qed.
Lemma note_good u : read_note u -> Forall good (note_toks u).
Proof.
  intros H. destruct u as [[p d s|d|x|x]| | | | | | | | | | | | | | |]; try contradiction.
  - destruct p as [l a|]; [|contradiction]. destruct H as [Ha Hd]. cbn [note_toks]. constructor; [split; [apply letter_range|]; repeat split; cbn; auto; discriminate|].
    apply Forall_app. split; [destruct a as [l0|]; [|constructor]; cbn; apply Forall_map; apply Forall_forall; intros [] _; repeat split; cbn; auto; discriminate|].
    apply Forall_app. split; [eapply dur_good, Hd|]. destruct s; repeat constructor; cbn; auto; discriminate.
  - cbn [note_toks]. constructor; [repeat split; cbn; auto; discriminate|]. eapply dur_good, H.
Qed.
Lemma note_fine u : read_note u -> fine (u_node u).
Proof.
  intros H. unfold u_node. destruct u as [[p d s|d|x|x]| | | | | | | | | | | | | | |]; try contradiction.
  - destruct p as [l a|]; [|contradiction]. destruct H as [Ha Hd]. cbn [gen gen_prim]. rewrite (gen_dur _ _ Hd). cbn [rmap rbind].
    apply fine_eq. split.
    + split; [exact I|]. intros (_ & It & dn & cs & Id & Td & Ed). cbn [nch] in *. destruct s.
      * destruct Id as [<-|Id]; [discriminate|]. apply in_app_or in Id as [Id|Id]; [|destruct Id as [<-|[]]; discriminate].
        destruct d as [cs'|]; [|destruct Id]. destruct Id as [<-|[]]. destruct Hd as (ls & k & -> & NE & F & K). rewrite (K eq_refl), app_nil_r in Ed. cbn [nch branch] in Ed.
        assert (X : In barline (map comp_node ls)) by (rewrite Ed; apply in_or_app; right; now left).
        apply in_map_iff in X as (c & X & Y). rewrite Forall_forall in F. specialize (F _ Y). destruct c; cbn in F, X; try contradiction; discriminate.
      * destruct It as [X|It]; [discriminate|]. rewrite app_nil_r in It. destruct d as [cs'|]; [|destruct It]. destruct It as [X|[]]; discriminate.
    + cbn [nch branch]. constructor.
      * apply branch_fine; [discriminate|]. constructor; [apply leaf_fine; [exact I|discriminate]|]. destruct a as [[|x l0]|]; try constructor; [|constructor].
        apply branch_fine; [discriminate|]. apply Forall_map. apply Forall_forall. intros [] _; apply branch_fine; try discriminate; constructor.
      * apply Forall_app. split; [eapply dur_fine, Hd|]. destruct s; repeat constructor. apply branch_fine; [discriminate|constructor].
  - cbn [gen gen_prim]. rewrite (gen_dur _ _ H). cbn [rmap rbind]. apply branch_fine; [discriminate|]. eapply dur_fine, H.
Qed.
End Written.

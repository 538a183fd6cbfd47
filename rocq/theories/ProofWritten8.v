(** Documents, imported and written as text. *)
From Coq Require Import String Ascii ZArith List Bool Lia Permutation.
From Verif Require Import Base Num ModelPitch ModelDuration ModelInstruments ModelTypes ModelLisp ModelScan SpecScan ModelParser ModelAst ModelFormat SpecFormat ProofFormatTop
  ModelScore ModelImporter ModelMusicXml ModelGen SpecGen SpecScore SpecImporter SpecMusicXml SpecXmlScore ProofGen4 ProofXmlParts ProofXmlDoc SpecWritten ProofWritten6 ProofWritten7.
Import ListNotations.
Local Open Scope string_scope.
Local Open Scope list_scope.
Local Open Scope Z_scope.

Theorem c69_document : forall M other part_order voice_order feq doc l (fmt : xq -> list rune) cfg (order : list ModelPitch.letter),
  1 <= M <= 24 -> (forall k vs, Permutation vs (voice_order k vs)) -> (forall x y, feq x y = true -> x = y) ->
  (forall x, In x order) -> blank_text (c_indent cfg) -> read_score M doc = Some l ->
  exists us, import_music_xml other part_order voice_order feq doc = ROk us /\
    forall ps : list (@wpart XQ), us = score_updates ps -> Forall (plain_part fmt) ps -> Forall in_range us ->
    exists a txt us', generate order us = ROk a /\ format fmt cfg a = Some txt /\ compile txt = ROk us' /\
      let r := exec us' new_score in
      snd r = Ok /\ Permutation (map (as_heard (fst r)) (events (fst r))) (map (in_ms M) l).
Proof.
  intros M other po vo feq doc l fmt cfg order HM Hv Hf Ho B Hr.
  destruct (import_sounds M HM other po vo Hv feq doc l Hf Hr) as (us & I0 & S1 & S2). exists us. split; [exact I0|].
  intros ps -> F G. destruct (c69_plays fmt cfg order ps new_score Ho B F G eq_refl) as (a & txt & us' & H1 & H2 & H3 & C1 & C2 & C3).
  exists a, txt, us'. split; [exact H1|]. split; [exact H2|]. split; [exact H3|]. cbv zeta. split; [congruence|]. rewrite <- C1.
  rewrite (map_ext _ (as_heard (fst (exec (SpecImporter.text_of (score_updates ps)) new_score)))); [exact S2|].
  intros e. unfold as_heard. now rewrite (heap_stock _ _ C3).
Qed.

(** ** Checking an import *)
Section Check.
Notation upd := (@update XQ).
(** The parts of a score without ends of voices: events before the first part, the
    voices after them, the parts. *)
Fixpoint parts_of (us : list upd) : list upd * list (@voice XQ) * list (@wpart XQ) :=
  match us with
  | [] => ([], [], [])
  | u :: t =>
      let '(ev, vs, ps) := parts_of t in
      match u with
      | UPart ns a => ([], [], WPart ns a ev [] vs :: ps)
      | UVoice n => ([], (n, ev) :: vs, ps)
      | _ => (u :: ev, vs, ps)
      end
  end.
Lemma parts_of_ok us : us = fst (fst (parts_of us)) ++ voices_updates (snd (fst (parts_of us))) ++ score_updates (snd (parts_of us)).
Proof.
  induction us as [|u us IH]; [reflexivity|]. cbn [parts_of]. destruct (parts_of us) as [[ev vs] ps]. cbn [fst snd] in *. rewrite IH at 1.
  destruct u; try reflexivity; cbn [fst snd voices_updates score_updates flat_map app wpart_updates w_names w_alias w_events w_groups w_last]; rewrite <- ?app_assoc; reflexivity.
Qed.

Definition len_b (c : @component XQ) : bool := match c with CLen x k => (0 <=? k) && (k <=? 9) && int_back false x | _ => false end.
Definition dur_b (d : @duration XQ) : bool := match d with None => true | Some cs => negb (match cs with [] => true | _ => false end) && forallb len_b cs end.
Definition note_b (u : upd) : bool :=
  match u with
  | UPrim (Note (PLetter _ accs) d _) => match accs with Some [] => false | _ => true end && dur_b d
  | UPrim (Rest d) => dur_b d
  | _ => false
  end.
Definition oct_b (u : upd) : bool :=
  match u with UPrim (Attr (POctave k)) => (0 <=? k) && (k <=? 9) | UPrim (Attr POctUp) | UPrim (Attr POctDown) => true | _ => false end.
Fixpoint more_b (es : list upd) : bool :=
  match es with
  | [] => false
  | [n] => note_b n
  | x :: t => (note_b x || oct_b x) && more_b t
  end.
Definition key_b (k : keysig) : bool :=
  forallb (fun l => match ks_get k l with Some [] => false | Some accs => forallb (fun a => match a with Natural => false | _ => true end) accs | None => true end) all7.
Definition event_b (u : upd) : bool :=
  match u with
  | UBarline => true
  | UPrim (Attr (POctave _)) | UPrim (Attr POctUp) | UPrim (Attr POctDown) => oct_b u
  | UPrim (Attr (PDynamic m)) => existsb (String.eqb m) (map fst dynamic_volumes)
  | UPrim (Attr (PKey k)) => key_b k
  | UPrim (Attr (PTransp k)) => (-99 <=? k) && (k <=? 99) && (if list_eq_dec Z.eq_dec (int_text (@nofZ XQ k)) (itoa k) then true else false) && int_back (k <? 0) (@nofZ XQ k)
  | UChord es => forallb oct_b (fst (split_octaves es)) && match snd (split_octaves es) with n :: t => note_b n && more_b t | [] => false end
  | _ => note_b u
  end.
Definition ascii_runes (s : string) : list rune := map (fun c => Z.of_N (N_of_ascii c)) (list_ascii_of_string s).
Definition letter_b (r : rune) : bool := ((97 <=? r) && (r <=? 122)) || ((65 <=? r) && (r <=? 90)).
Definition name_b (s : string) : bool :=
  match ascii_runes s with
  | c :: c' :: t => forallb scalar_check (ascii_runes s) && String.eqb s (utf8 (ascii_runes s)) && letter_b c && letter_b c' && forallb word_char t
  | _ => false
  end.
Definition voice_b (v : @voice XQ) : bool := (1 <=? fst v) && (fst v <=? 999) && forallb event_b (snd v).
Definition part_b (p : @wpart XQ) : bool :=
  match w_names p with [] => false | _ => true end && forallb name_b (w_names p) && String.eqb (w_alias p) "" && forallb event_b (w_events p) &&
  match w_groups p with [] => true | _ => false end && forallb voice_b (w_last p).

Lemma small_ok k n : (0 <=? k) && (k <=? n) = true -> n <= max_int32 -> 0 <= k <= max_int32.
Proof. intros H L. apply andb_true_iff in H as [A B]. apply Z.leb_le in A, B. lia. Qed.
Lemma forallb_Forall {A : Type} (f : A -> bool) (P : A -> Prop) l : (forall x, f x = true -> P x) -> forallb f l = true -> Forall P l.
Proof. intros H E. apply Forall_forall. intros x Hx. apply H. rewrite forallb_forall in E. now apply E. Qed.
Lemma len_ok c : len_b c = true -> plain_length int_text c.
Proof. destruct c; try discriminate. cbn [len_b]. intros H. apply andb_true_iff in H as [A B]. split; [eapply small_ok; [exact A|unfold max_int32; lia]|now apply int_back_ok]. Qed.
Lemma dur_ok d : dur_b d = true -> plain_duration int_text d.
Proof.
  destruct d as [cs|]; [|intros; exact I]. cbn [dur_b]. intros H. apply andb_true_iff in H as [A B]. split; [destruct cs; [discriminate|discriminate]|]. eapply forallb_Forall; [|exact B]. apply len_ok.
Qed.
Lemma note_ok u : note_b u = true -> plain_note int_text u.
Proof.
  destruct u as [[[l accs|k] d s|d|x|x]| | | | | | | | | | | | | | |]; try discriminate; cbn [note_b].
  - intros H. apply andb_true_iff in H as [A B]. split; [destruct accs as [[|]|]; [discriminate|discriminate|discriminate]|now apply dur_ok].
  - apply dur_ok.
Qed.
Lemma oct_ok u : oct_b u = true -> octave_change u.
Proof.
  destruct u as [[p d s|d|x|x]| | | | | | | | | | | | | | |]; try discriminate. destruct x; try discriminate; cbn [oct_b octave_change]; auto.
  intros H. eapply small_ok; [exact H|unfold max_int32; lia].
Qed.
Lemma more_ok es : more_b es = true -> chord_more int_text es.
Proof.
  induction es as [|x t IH]; [discriminate|]. destruct t as [|y t]; [apply note_ok|]. intros H. cbn [more_b] in H. apply andb_true_iff in H as [A B].
  split; [|now apply IH]. apply orb_true_iff in A as [A|A]; [left; now apply note_ok|right; now apply oct_ok].
Qed.
Lemma key_ok k : key_b k = true -> plain_key k.
Proof.
  unfold key_b. intros H l accs E. rewrite forallb_forall in H. specialize (H l (all7_ok l)). rewrite E in H. split; [intros ->; discriminate|].
  destruct accs as [|a accs]; [constructor|]. eapply forallb_Forall; [|exact H]. intros []; discriminate.
Qed.
Lemma event_ok u : event_b u = true -> plain_event int_text u /\ in_range u.
Proof.
  assert (X : note_b u = true -> in_range u) by (destruct u as [[p d s|d|x|x]| | | | | | | | | | | | | | |]; try discriminate; intros; exact I).
  destruct u as [[p d s|d|x|x]| | | |es| | | | | | | | | | |]; try (intros H; split; [exact (note_ok _ H)|exact (X H)]).
  - destruct x as [| |k| | | | |m| | | |k|k| |]; try (intros H; split; [exact (note_ok _ H)|exact I]).
    + intros H. split; [exact (oct_ok _ H)|exact I].
    + intros _. split; exact I.
    + intros _. split; exact I.
    + intros H. split; [|exact I]. cbn [event_b] in H. apply existsb_exists in H as (y & Hy & E). apply String.eqb_eq in E. subst y. exact Hy.
    + intros H. split; [exact (key_ok _ H)|exact I].
    + cbn [event_b]. intros H. apply andb_true_iff in H as [H H4]. apply andb_true_iff in H as [H H3]. apply andb_true_iff in H as [H1 H2]. apply Z.leb_le in H1, H2. split.
      * split; [destruct (list_eq_dec Z.eq_dec (int_text (@nofZ XQ k)) (itoa k)) as [E|]; [exact E|discriminate]|]. exists (k <? 0). now apply int_back_ok.
      * cbn [in_range]. lia.
  - intros _. split; exact I.
  - cbn [event_b]. intros H. apply andb_true_iff in H as [A B]. split; [|exact I]. split; [eapply forallb_Forall; [|exact A]; apply oct_ok|].
    destruct (snd (split_octaves es)) as [|n t]; [discriminate|]. apply andb_true_iff in B as [B C]. split; [now apply note_ok|now apply more_ok].
Qed.
Lemma letter_ok r : letter_b r = true -> letter r.
Proof. unfold letter_b, letter. rewrite orb_true_iff, !andb_true_iff, !Z.leb_le. tauto. Qed.
Lemma name_ok s : name_b s = true -> name_of s.
Proof.
  unfold name_b. destruct (ascii_runes s) as [|c [|c' t]] eqn:E; try discriminate. intros H. apply andb_true_iff in H as [H H5]. apply andb_true_iff in H as [H H4].
  apply andb_true_iff in H as [H H3]. apply andb_true_iff in H as [H1 H2]. apply String.eqb_eq in H2. exists c, c', t. split; [now apply scalar_check_ok|]. split; [exact H2|].
  split; [now apply letter_ok|]. split; [now apply letter_ok|]. eapply forallb_Forall; [|exact H5]. auto.
Qed.
Lemma events_ok es : forallb event_b es = true -> Forall (plain_event int_text) es /\ Forall in_range es.
Proof. intros H. split; (eapply forallb_Forall; [|exact H]); intros u Hu; now apply event_ok. Qed.
Lemma voice_ok v : voice_b v = true -> plain_voice int_text v /\ Forall in_range (UVoice (fst v) :: snd v).
Proof.
  unfold voice_b. intros H. apply andb_true_iff in H as [H H3]. apply andb_true_iff in H as [H1 H2]. apply Z.leb_le in H1, H2. destruct (events_ok _ H3) as [A B].
  split; [split; [unfold max_int32; lia|exact A]|constructor; [exact I|exact B]].
Qed.
Lemma part_ok p : part_b p = true -> plain_part int_text p /\ Forall in_range (wpart_updates p).
Proof.
  unfold part_b. intros H. apply andb_true_iff in H as [H H6]. apply andb_true_iff in H as [H H5]. apply andb_true_iff in H as [H H4]. apply andb_true_iff in H as [H H3]. apply andb_true_iff in H as [H1 H2].
  destruct p as [ns a ev gs vs]. unfold plain_part, wpart_updates. cbn [w_names w_alias w_events w_groups w_last] in *. destruct gs; [|discriminate]. apply String.eqb_eq in H3. subst a.
  destruct (events_ok _ H4) as [A B]. split.
  - split; [destruct ns; [discriminate|discriminate]|]. split; [eapply forallb_Forall; [|exact H2]; apply name_ok|].
    split; [exists []; split; [constructor|split; [reflexivity|constructor]]|]. split; [exact A|]. split; [constructor|]. eapply forallb_Forall; [|exact H6]. intros v Hv. now apply voice_ok.
  - constructor; [exact I|]. apply Forall_app. split; [exact B|]. cbn [flat_map app]. clear -H6. induction vs as [|v vs IH]; [constructor|]. cbn [forallb] in H6. apply andb_true_iff in H6 as [H1 H2].
    unfold voices_updates. cbn [flat_map]. apply Forall_app. split; [now apply voice_ok|now apply IH].
Qed.
Definition written_b (us : list upd) : bool :=
  match parts_of us with ([], [], ps) => forallb part_b ps | _ => false end.
Lemma written_ok us : written_b us = true -> exists ps, us = score_updates ps /\ Forall (plain_part int_text) ps /\ Forall in_range us.
Proof.
  unfold written_b. pose proof (parts_of_ok us) as E. destruct (parts_of us) as [[[|] [|]] ps]; try discriminate. cbn [fst snd app voices_updates flat_map] in E. intros H.
  exists ps. split; [exact E|]. split; [eapply forallb_Forall; [|exact H]; intros p Hp; now apply part_ok|]. rewrite E. clear E. induction ps as [|p ps IH]; [constructor|].
  cbn [forallb] in H. apply andb_true_iff in H as [A B]. unfold score_updates. cbn [flat_map]. apply Forall_app. split; [now apply part_ok|now apply IH].
Qed.
End Check.

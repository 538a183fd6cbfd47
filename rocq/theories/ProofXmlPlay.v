(** What a list of imported updates plays, with positions in ticks, and that the
    importer's count of beats agrees (C57). *)
From Coq Require Import ZArith QArith Qcanon Qabs Lqa Ascii String List Bool Lia.
From Verif Require Import Base Num ModelPitch ModelDuration ModelInstruments ModelTypes ModelLisp ModelScore
  ModelImporter ModelMusicXml SpecImporter SpecMusicXml SpecXmlScore ProofXmlDur.
Import ListNotations.
Local Open Scope list_scope.
Local Open Scope Z_scope.

Section Play.
Variable M : Z.
Hypothesis HM : 1 <= M <= 24.

(** Ticks as quarter notes and as milliseconds. *)
Definition tq (t : Z) : @num XQ := qn (inject_Z t / inject_Z M).
Definition tms (t : Z) : @num XQ := qn (inject_Z (500 * t) / inject_Z M).

Lemma HMpos : (0 < inject_Z M)%Q.
Proof. apply injZ_pos. lia. Qed.
Lemma tq_add : forall a b, nadd (tq a) (tq b) = tq (a + b).
Proof. intros. pose proof HMpos. unfold tq. rewrite qn_add. apply qn_eq. rewrite inject_Z_plus. field. lra. Qed.
Lemma tq_sub : forall a b, nsub (tq a) (tq b) = tq (a - b).
Proof.
  intros. pose proof HMpos. unfold tq. rewrite qn_sub. apply qn_eq. unfold Z.sub. rewrite inject_Z_plus, inject_Z_opp. field. lra.
Qed.
Lemma tms_add : forall a b, nadd (tms a) (tms b) = tms (a + b).
Proof.
  intros. pose proof HMpos. unfold tms. rewrite qn_add. apply qn_eq.
  replace (500 * (a + b)) with (500 * a + 500 * b) by ring. rewrite inject_Z_plus. field. lra.
Qed.
Lemma div_lt : forall a b : Z, (inject_Z a / inject_Z M < inject_Z b / inject_Z M)%Q <-> a < b.
Proof.
  intros a b. pose proof HMpos as P. split; intros H.
  - apply (Qmult_lt_r _ _ _ P) in H.
    assert (E1 : (inject_Z a / inject_Z M * inject_Z M == inject_Z a)%Q) by (field; lra).
    assert (E2 : (inject_Z b / inject_Z M * inject_Z M == inject_Z b)%Q) by (field; lra).
    rewrite E1, E2, <- Zlt_Qlt in H. exact H.
  - apply (Qmult_lt_r _ _ _ P).
    assert (E1 : (inject_Z a / inject_Z M * inject_Z M == inject_Z a)%Q) by (field; lra).
    assert (E2 : (inject_Z b / inject_Z M * inject_Z M == inject_Z b)%Q) by (field; lra).
    rewrite E1, E2, <- Zlt_Qlt. exact H.
Qed.
Lemma tq_lt : forall a b, nltb (tq a) (tq b) = (a <? b).
Proof.
  intros a b. destruct (Z.ltb_spec a b) as [H|H].
  - apply qn_lt, div_lt, H.
  - apply qn_ge, Qnot_lt_le. intros H1. rewrite div_lt in H1. lia.
Qed.
Lemma tms_lt : forall a b, nltb (tms a) (tms b) = (a <? b).
Proof.
  intros a b. destruct (Z.ltb_spec a b) as [H|H].
  - apply qn_lt, div_lt. lia.
  - apply qn_ge, Qnot_lt_le. intros H1. rewrite div_lt in H1. lia.
Qed.
Lemma tq_0 : @n0 XQ = tq 0.
Proof. rewrite qn_0. apply qn_eq. unfold Qdiv. ring. Qed.
Lemma tms_0 : @n0 XQ = tms 0.
Proof. rewrite qn_0. apply qn_eq. unfold Qdiv. change (inject_Z (500 * 0)) with 0%Q. ring. Qed.
Lemma tq_inj : forall a b, tq a = tq b -> a = b.
Proof.
  intros a b H. apply qn_inj in H.
  destruct (Z.lt_trichotomy a b) as [L|[L|L]]; [|exact L|]; apply div_lt in L; lra.
Qed.

(** Totals are on the grid of the ticks, and rounding leaves them alone. *)
Lemma tq_round : forall t, round_close (tq t) = tq t.
Proof.
  intros t. pose proof HMpos as P. apply round_close_keep. intros z H.
  assert (t = z * M).
  { destruct (Z.lt_trichotomy t (z * M)) as [L|[L|L]]; [exfalso|exact L|exfalso];
      apply Qabs_Qlt_condition in H; destruct H as [H1 H2];
      assert (E : (inject_Z t / inject_Z M - inject_Z z == inject_Z (t - z * M) / inject_Z M)%Q)
        by (unfold Z.sub; rewrite inject_Z_plus, inject_Z_opp, inject_Z_mult; field; lra);
      rewrite E in *;
      assert (P24 : (inject_Z M <= 24)%Q) by (change 24%Q with (inject_Z 24); rewrite <- Zle_Qle; lia).
    - assert (L1 : (inject_Z (t - z * M) <= -1)%Q) by (change (-1)%Q with (inject_Z (-1)); rewrite <- Zle_Qle; lia).
      apply (Qmult_lt_r _ _ _ P) in H1.
      assert (E2 : (inject_Z (t - z * M) / inject_Z M * inject_Z M == inject_Z (t - z * M))%Q) by (field; lra).
      rewrite E2 in H1. lra.
    - assert (L1 : (1 <= inject_Z (t - z * M))%Q) by (change 1%Q with (inject_Z 1); rewrite <- Zle_Qle; lia).
      apply (Qmult_lt_r _ _ _ P) in H2.
      assert (E2 : (inject_Z (t - z * M) / inject_Z M * inject_Z M == inject_Z (t - z * M))%Q) by (field; lra).
      rewrite E2 in H2. lra. }
  subst t. rewrite inject_Z_mult. field. lra.
Qed.

(* ---------------- durations ---------------- *)

(** [d] is a duration of [t] ticks. *)
Definition len (d : @duration XQ) (t : Z) : Prop :=
  has_length d = true /\ dur_valid d = true /\ dur_beats d = Some (tq t) /\ 1 <= t <= 40000 * M.

Lemma has_length_some : forall d : @duration XQ, has_length d = true -> exists l, d = Some l.
Proof. intros [l|] H; [now exists l|discriminate]. Qed.

Lemma valid_app : forall l : list (@component XQ), dur_valid (Some (l ++ [CBar])) = dur_valid (Some l).
Proof.
  intros l. unfold dur_valid. cbn [comp_valid]. induction l as [|c l IH]; [reflexivity|].
  cbn [app]. now rewrite IH.
Qed.
Lemma xadd_0 : forall x : @num XQ, nadd x n0 = x.
Proof. intros []; try reflexivity. cbn [nadd XQ xq_add]. change (@n0 XQ) with (Fin (Q2Qc 0)). cbn. f_equal. ring. Qed.
Lemma beats_app : forall l : list (@component XQ), dur_beats (Some (l ++ [CBar])) = dur_beats (Some l).
Proof.
  intros l. rewrite !beats_some. generalize (@n0 XQ) at 1 2. induction l as [|c l IH]; intros a.
  - cbn [app comp_beats]. now rewrite xadd_0.
  - cbn [app]. destruct (comp_beats c); [apply IH|reflexivity].
Qed.
Lemma len_bar : forall d t, len d t -> len (Some (dcomps d ++ [CBar])) t.
Proof.
  intros d t (H1 & H2 & H3 & H4). destruct (has_length_some _ H1) as [l ->]. cbn [dcomps].
  split; [|split; [|split]].
  - unfold has_length in *. rewrite existsb_app, H1. reflexivity.
  - now rewrite valid_app.
  - now rewrite beats_app.
  - exact H4.
Qed.

(** Milliseconds at 120 quarter notes per minute. *)
Definition half : @num XQ := qn 500.
Lemma half_add : forall a b : @num XQ, nmul (nadd a b) half = nadd (nmul a half) (nmul b half).
Proof.
  intros [a| | |] [b| | |]; try reflexivity. cbn [nmul nadd XQ xq_add xq_mul half qn]. f_equal. ring.
Qed.
Lemma tempo_half : ndiv (@nofZ XQ 60000) (nofZ 120) = half.
Proof. rewrite !qn_ofZ, qn_div by discriminate. apply qn_eq. reflexivity. Qed.
Fixpoint comp_ms_beats (c : @component XQ) : forall b, comp_beats c = Some b -> comp_ms (nofZ 120) c = nmul b half.
Proof.
  destruct c as [den k|q|q|q| |[l|]]; intros b H.
  - injection H as <-. cbn [comp_ms]. unfold beats_ms. now rewrite tempo_half.
  - injection H as <-. cbn [comp_ms]. unfold beats_ms. now rewrite tempo_half.
  - discriminate.
  - discriminate.
  - injection H as <-. vm_compute. reflexivity.
  - cbn [comp_beats] in H. cbn [comp_ms].
    assert (E0 : @n0 XQ = nmul n0 half) by (vm_compute; reflexivity).
    rewrite E0 at 1. clear E0. revert H. generalize (@n0 XQ).
    induction l as [|x t IH]; intros a H.
    + injection H as <-. reflexivity.
    + destruct (comp_beats x) as [bx|] eqn:Ex; [|discriminate].
      rewrite (comp_ms_beats x bx Ex), <- half_add. apply IH, H.
  - injection H as <-. vm_compute. reflexivity.
Qed.
Lemma len_ms : forall d t, len d t -> dur_ms_of (nofZ 120) d = tms t.
Proof.
  intros d t (H1 & _ & H3 & _). destruct (has_length_some _ H1) as [l ->].
  assert (E : dur_ms_of (nofZ 120) (Some l) = comp_ms (nofZ 120) (CDur (Some l))).
  { unfold dur_ms_of, dcomps. cbn [comp_ms]. clear. generalize (@n0 XQ).
    induction l as [|x r IH]; intros a; cbn [fold_left]; [reflexivity|]. apply IH. }
  rewrite E, (comp_ms_beats _ _ H3). unfold tq, tms, half. rewrite qn_mul. apply qn_eq.
  rewrite inject_Z_mult. change (inject_Z 500) with 500%Q. pose proof HMpos. field. lra.
Qed.

(* ---------------- what is played ---------------- *)
Variable K : keysig.
Variable T : Z.

Definition sounds_at (pi : pitch) (o k : Z) : Prop := calc_midi_note pi o K T = k /\ 0 <= k <= 127.

(** The attributes inside a voice, with the octave before and after. *)
Inductive attr_oct : @part_update XQ -> Z -> Z -> Prop :=
| AO_set n o : attr_oct (POctave n) o n
| AO_up o : attr_oct POctUp o (wrap32 (o + 1))
| AO_down o : attr_oct POctDown o (wrap32 (o - 1))
| AO_dyn m o : attr_oct (PDynamic m) o o.

(** Members of a chord of [t] ticks. *)
Inductive members (t : Z) : list (@update XQ) -> Z -> Z -> list Z -> Prop :=
| M_nil o : members t [] o o []
| M_note l a d sl es o o' k ks : len d t -> sounds_at (PLetter l a) o k -> members t es o o' ks ->
    members t (UPrim (Note (PLetter l a) d sl) :: es) o o' (k :: ks)
| M_attr u es o o1 o' ks : attr_oct u o o1 -> members t es o1 o' ks -> members t (UPrim (Attr u) :: es) o o' ks.

(** An update takes octave [o] and position [p] to [o'] and [p'] and plays. *)
Inductive play1 : @update XQ -> Z -> Z -> Z -> Z -> list sound -> Prop :=
| P_note l a d sl t o p k : len d t -> sounds_at (PLetter l a) o k ->
    play1 (UPrim (Note (PLetter l a) d sl)) o p o (p + t) [Sound k p t]
| P_rest d t o p : len d t -> play1 (UPrim (Rest d)) o p o (p + t) []
| P_attr u o p o' : attr_oct u o o' -> play1 (UPrim (Attr u)) o p o' p []
| P_bar o p : play1 UBarline o p o p []
| P_chord l a d sl es t o p o' ks : 1 <= t <= 40000 * M -> members t (UPrim (Note (PLetter l a) d sl) :: es) o o' ks ->
    play1 (UChord (UPrim (Note (PLetter l a) d sl) :: es)) o p o' (p + t) (map (fun k => Sound k p t) ks).
Inductive play : list (@update XQ) -> Z -> Z -> Z -> Z -> list sound -> Prop :=
| P_nil o p : play [] o p o p []
| P_cons x us o p o1 p1 o' p' e es : play1 x o p o1 p1 e -> play us o1 p1 o' p' es -> play (x :: us) o p o' p' (e ++ es).

Lemma play_one : forall x o p o' p' e, play1 x o p o' p' e -> play [x] o p o' p' e.
Proof. intros. rewrite <- (app_nil_r e). econstructor; [eassumption|constructor]. Qed.
Lemma play_app : forall us vs o p o1 p1 o' p' e f, play us o p o1 p1 e -> play vs o1 p1 o' p' f -> play (us ++ vs) o p o' p' (e ++ f).
Proof.
  intros us vs o p o1 p1 o' p' e f H1 H2. induction H1; [exact H2|]. rewrite <- app_assoc. cbn [app].
  econstructor; [eassumption|]. now apply IHplay.
Qed.
Lemma play_app_inv : forall us vs o p o' p' g, play (us ++ vs) o p o' p' g ->
  exists o1 p1 e f, g = e ++ f /\ play us o p o1 p1 e /\ play vs o1 p1 o' p' f.
Proof.
  induction us as [|x us IH]; intros vs o p o' p' g H.
  - exists o, p, [], g. split; [reflexivity|]. split; [constructor|exact H].
  - cbn [app] in H. inversion H as [|x' us' o0 p0 o1 p1 o0' p0' e es Hx Hus]; subst.
    destruct (IH _ _ _ _ _ _ Hus) as (o2 & p2 & e1 & f & -> & A & B).
    exists o2, p2, (e ++ e1), f. split; [now rewrite app_assoc|]. split; [econstructor; eassumption|exact B].
Qed.
Lemma play_one_inv : forall x o p o' p' e, play [x] o p o' p' e -> play1 x o p o' p' e.
Proof. intros x o p o' p' e H. inversion H as [|x' us' o0 p0 o1 p1 o0' p0' e' es Hx Hus]; subst. inversion Hus; subst. now rewrite app_nil_r. Qed.

Lemma members_app : forall t us vs o o1 o' ks ls, members t us o o1 ks -> members t vs o1 o' ls -> members t (us ++ vs) o o' (ks ++ ls).
Proof. intros t us vs o o1 o' ks ls H1 H2. induction H1; cbn [app]; [exact H2| |]; econstructor; eauto. Qed.

Lemma play1_pos : forall x o p o' p' e, play1 x o p o' p' e -> p <= p'.
Proof. intros x o p o' p' e H. inversion H; subst; try lia; match goal with X : len _ _ |- _ => destruct X as (_ & _ & _ & X); lia end. Qed.
Lemma play_pos : forall us o p o' p' e, play us o p o' p' e -> p <= p'.
Proof. intros us o p o' p' e H. induction H; [lia|]. apply play1_pos in H. lia. Qed.

(* ---------------- the count of beats ---------------- *)
Lemma beats_seq : forall us : list (@update XQ), get_beats (USeq us) = fold_left (fun acc x => nadd acc (get_beats x)) us n0.
Proof.
  intros us. cbn [get_beats]. generalize (@n0 XQ). induction us as [|x us IH]; intros a; [reflexivity|]. cbn [fold_left]. apply IH.
Qed.
Definition least_step (m : @num XQ) (x : @update XQ) : @num XQ :=
  let b := nadd n0 (get_beats x) in if nltb n0 b && nltb b m then b else m.
Lemma beats_chord : forall es : list (@update XQ),
  get_beats (UChord es) = let m := fold_left least_step es nmaxval in if nltb m nmaxval then m else n0.
Proof.
  intros es. cbn [get_beats]. cbv zeta.
  match goal with |- context [(fix go (l : list update) (m : num) {struct l} : num := _) es nmaxval] =>
    set (g := (fix go (l : list update) (m : num) {struct l} : num := _)) end.
  assert (G : forall l m, g l m = fold_left least_step l m); [|now rewrite G].
  induction l as [|x l IH]; intros m; [reflexivity|]. cbn [fold_left]. unfold least_step at 2. apply IH.
Qed.
Lemma beats_note : forall pi d sl t, len d t -> get_beats (UPrim (Note pi d sl)) = tq t.
Proof. intros pi d sl t (_ & _ & H & _). cbn [get_beats]. unfold beats_of. now rewrite H. Qed.

Lemma tq_max : forall t, t <= 40000 * M -> nltb (tq t) nmaxval = true.
Proof.
  intros t H. change (@nmaxval XQ) with (qn (inject_Z ((2 ^ 53 - 1) * 2 ^ 971))). apply qn_lt.
  apply Qle_lt_trans with (inject_Z 40000).
  - apply Qle_shift_div_r; [apply HMpos|]. rewrite <- inject_Z_mult, <- Zle_Qle. lia.
  - rewrite <- Zlt_Qlt. vm_compute. reflexivity.
Qed.

Lemma members_least : forall t es o o' ks, 1 <= t <= 40000 * M -> members t es o o' ks ->
  forall m, (m = nmaxval \/ m = tq t) ->
  fold_left least_step es m = match ks with [] => m | _ => tq t end.
Proof.
  intros t es o o' ks Ht H. induction H as [|l a d sl es o o' k ks Hd Hk H IH|u es o o1 o' ks Hu H IH]; intros m Hm; cbn [fold_left].
  - reflexivity.
  - assert (E : least_step m (UPrim (Note (PLetter l a) d sl)) = tq t).
    { unfold least_step. rewrite (beats_note _ _ _ _ Hd), tq_0, tq_add, tq_lt. cbn [Z.add].
      assert ((0 <? t) = true) as -> by lia. cbn [andb].
      destruct Hm as [-> | ->]; [now rewrite tq_max by lia|]. now rewrite tq_lt, Z.ltb_irrefl. }
    rewrite E, IH by now right. now destruct ks.
  - assert (E : least_step m (UPrim (Attr u)) = m).
    { unfold least_step. cbn [get_beats]. rewrite xadd_0. now rewrite tq_0, tq_lt. }
    rewrite E. now apply IH.
Qed.

Lemma play1_beats : forall x o p o' p' e, play1 x o p o' p' e -> get_beats x = tq (p' - p).
Proof.
  intros x o p o' p' e H. inversion H; subst.
  - replace (p + t - p) with t by ring. eapply beats_note; eassumption.
  - replace (p + t - p) with t by ring. destruct H0 as (_ & _ & E & _). cbn [get_beats]. unfold beats_of. now rewrite E.
  - rewrite Z.sub_diag, <- tq_0. reflexivity.
  - rewrite Z.sub_diag, <- tq_0. reflexivity.
  - replace (p + t - p) with t by ring. rewrite beats_chord. cbv zeta.
    rewrite (members_least t _ _ _ _ H0 H1) by now left. inversion H1; subst. now rewrite tq_max by lia.
Qed.
Lemma play_beats : forall us o p o' p' e, play us o p o' p' e -> get_beats (USeq us) = tq (p' - p).
Proof.
  intros us o p o' p' e H. rewrite beats_seq, tq_0.
  assert (G : forall a, fold_left (fun acc x => nadd acc (get_beats x)) us (tq a) = tq (a + (p' - p))).
  { induction H as [|x us o p o1 p1 o' p' e es H1 H2 IH]; intros a; cbn [fold_left].
    - f_equal. ring.
    - rewrite (play1_beats _ _ _ _ _ _ H1), tq_add, IH. f_equal. ring. }
  rewrite G. f_equal. 
Qed.

(* ---------------- shapes ---------------- *)
Lemma play1_flat : forall x o p o' p' e, play1 x o p o' p' e -> nested x true = None.
Proof. intros x o p o' p' e H. now inversion H. Qed.
Lemma len_has : forall d t, len d t -> has_length d = true.
Proof. now intros d t [H _]. Qed.
Lemma attr_voice : forall u o o', attr_oct u o o' -> voice_attr false u = true.
Proof. intros u o o' H. now inversion H. Qed.
Lemma members_flat : forall t es o o' ks, members t es o o' ks -> forallb (flat_event false) es = true.
Proof.
  intros t es o o' ks H. induction H; [reflexivity| |]; cbn [forallb flat_event pitch_written negb andb].
  - now rewrite (len_has _ _ H), IHmembers.
  - now rewrite (attr_voice _ _ _ H), IHmembers.
Qed.
Lemma play1_event : forall x o p o' p' e, play1 x o p o' p' e -> voice_event false x = true.
Proof.
  intros x o p o' p' e H. inversion H; subst; cbn [voice_event flat_event pitch_written negb andb].
  - eapply len_has; eassumption.
  - eapply len_has; eassumption.
  - eapply attr_voice; eassumption.
  - reflexivity.
  - now rewrite (members_flat _ _ _ _ _ H1).
Qed.
Lemma play_events : forall us o p o' p' e, play us o p o' p' e -> forallb (voice_event false) us = true.
Proof. intros us o p o' p' e H. induction H; [reflexivity|]. cbn [forallb]. now rewrite (play1_event _ _ _ _ _ _ H), IHplay. Qed.
Lemma flat_finished : forall (x : @update XQ), flat_event false x = true -> finished x = x.
Proof. intros x H. destruct x; try discriminate; reflexivity. Qed.
Lemma play1_finished : forall x o p o' p' e, play1 x o p o' p' e -> finished x = x.
Proof.
  intros x o p o' p' e H. inversion H; subst; try reflexivity. apply members_flat in H1. revert H1.
  generalize (UPrim (Note (PLetter l a) d sl) :: es) as L. intros L HL. cbn [finished]. f_equal. clear H.
  induction L as [|y L IH]; [reflexivity|]. cbn [forallb] in HL. apply andb_prop in HL. destruct HL as [A B].
  now rewrite flat_finished, IH.
Qed.
Lemma play_finished : forall us o p o' p' e, play us o p o' p' e -> map finished us = us.
Proof. intros us o p o' p' e H. induction H; [reflexivity|]. cbn [map]. now rewrite (play1_finished _ _ _ _ _ _ H), IHplay. Qed.
End Play.

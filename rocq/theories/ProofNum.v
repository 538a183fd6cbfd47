(** Facts about the exact number instance [XQ]. *)
From Coq Require Import ZArith QArith Qcanon Bool Lia Lqa Field.
From Verif Require Import Base Num.

Lemma this_Q2Qc : forall q : Q, (this (Q2Qc q) == q)%Q.
Proof. intros. apply Qred_correct. Qed.

Lemma Q2Qc_eq : forall a b : Q, (a == b)%Q -> Q2Qc a = Q2Qc b.
Proof. intros a b H. apply Qc_is_canon. rewrite !this_Q2Qc. exact H. Qed.

Lemma Qc_eq_this : forall a b : Qc, (this a == this b)%Q -> a = b.
Proof. exact Qc_is_canon. Qed.

Lemma this_plus : forall a b : Qc, (this (a + b)%Qc == this a + this b)%Q.
Proof. intros. apply Qred_correct. Qed.
Lemma this_minus : forall a b : Qc, (this (a - b)%Qc == this a - this b)%Q.
Proof. intros. unfold Qcminus, Qcopp. rewrite this_plus, this_Q2Qc. reflexivity. Qed.
Lemma this_mult : forall a b : Qc, (this (a * b)%Qc == this a * this b)%Q.
Proof. intros. apply Qred_correct. Qed.
Lemma this_opp : forall a : Qc, (this (- a)%Qc == - this a)%Q.
Proof. intros. apply Qred_correct. Qed.
Lemma this_inv : forall a : Qc, (this (/ a)%Qc == / this a)%Q.
Proof. intros. apply Qred_correct. Qed.
Lemma this_div : forall a b : Qc, (this (a / b)%Qc == this a / this b)%Q.
Proof. intros. unfold Qcdiv. rewrite this_mult, this_inv. reflexivity. Qed.

Lemma qc_ltb_lt : forall a b, qc_ltb a b = true <-> (a < b)%Qc.
Proof.
  intros a b. unfold qc_ltb, Qclt. rewrite negb_true_iff.
  split; intros H.
  - apply Qnot_le_lt. intro F. apply Qle_bool_iff in F. congruence.
  - destruct (Qle_bool b a) eqn:E; [|reflexivity].
    apply Qle_bool_iff in E. exfalso. exact (Qle_not_lt _ _ E H).
Qed.
Lemma qc_ltb_ge : forall a b, qc_ltb a b = false <-> (b <= a)%Qc.
Proof.
  intros a b. unfold qc_ltb, Qcle. rewrite negb_false_iff. apply Qle_bool_iff.
Qed.
Lemma qc_leb_le : forall a b, qc_leb a b = true <-> (a <= b)%Qc.
Proof. intros. unfold qc_leb, Qcle. apply Qle_bool_iff. Qed.
Lemma qc_eqb_eq : forall a b, qc_eqb a b = true <-> a = b.
Proof.
  intros. unfold qc_eqb. rewrite Qeq_bool_iff. split; [apply Qc_is_canon|intros ->; reflexivity].
Qed.
Lemma qc_eqb_refl : forall a, qc_eqb a a = true.
Proof. intros. apply qc_eqb_eq. reflexivity. Qed.
Lemma qc_eqb_neq : forall a b, qc_eqb a b = false <-> a <> b.
Proof.
  intros. split; intros H.
  - intros F. apply qc_eqb_eq in F. congruence.
  - destruct (qc_eqb a b) eqn:E; [apply qc_eqb_eq in E; contradiction|reflexivity].
Qed.

(** Arithmetic on finite values is exact. *)
Lemma xq_div_fin : forall a b, b <> Q2Qc 0 -> xq_div (Fin a) (Fin b) = Fin (a / b)%Qc.
Proof. intros a b H. cbn. apply qc_eqb_neq in H. rewrite H. reflexivity. Qed.

Lemma xq_ltb_fin : forall a b, xq_ltb (Fin a) (Fin b) = qc_ltb a b.
Proof. reflexivity. Qed.

Lemma xq_leb_fin : forall a b, xq_leb (Fin a) (Fin b) = qc_leb a b.
Proof.
  intros a b. unfold xq_leb. cbn [xq_ltb xq_eqb].
  destruct (qc_leb a b) eqn:E.
  - apply qc_leb_le in E.
    destruct (qc_eqb a b) eqn:E2; [apply orb_true_r|].
    apply qc_eqb_neq in E2. rewrite orb_false_r. apply qc_ltb_lt.
    destruct (Qcle_lt_or_eq _ _ E); [assumption|contradiction].
  - apply orb_false_iff. split.
    + destruct (qc_ltb a b) eqn:E2; [|reflexivity].
      apply qc_ltb_lt, Qclt_le_weak, qc_leb_le in E2. congruence.
    + apply qc_eqb_neq. intros ->.
      assert (qc_leb b b = true) by (apply qc_leb_le, Qcle_refl). congruence.
Qed.

Definition finite (x : xq) : Prop := exists q, x = Fin q.

(** Decide linear facts over Qc by moving to Q. *)
Lemma Qc_lt_this : forall a b : Qc, (a < b)%Qc <-> (this a < this b)%Q.
Proof. reflexivity. Qed.
Lemma Qc_le_this : forall a b : Qc, (a <= b)%Qc <-> (this a <= this b)%Q.
Proof. reflexivity. Qed.

Ltac qc_hyp H :=
  first [ apply Qc_lt_this in H | apply Qc_le_this in H
        | apply (f_equal this) in H; apply (fun e => eq_rect _ (fun x => (x == _)%Q) (Qeq_refl _) _ (eq_sym e)) in H ].

Ltac qc_push :=
  repeat first [ rewrite this_plus in * | rewrite this_minus in * | rewrite this_opp in *
               | rewrite this_mult in * | rewrite this_Q2Qc in * ].

Ltac qclra :=
  unfold Qclt, Qcle in *;
  first [ apply Qc_is_canon | idtac ];
  qc_push; try lra.

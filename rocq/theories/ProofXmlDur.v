(** C55: the lengths of imported notes, in exact arithmetic. *)
From Coq Require Import ZArith QArith Qabs Qround Qpower Qcanon Ascii String List Bool Lia Lqa.
From Verif Require Import Base Num ModelPitch ModelDuration ModelInstruments ModelTypes ModelLisp ModelImporter ModelMusicXml
  ProofNum ProofPitch.
Import ListNotations.
Local Open Scope list_scope.
Local Open Scope Q_scope.

(** A rational number as a number of the exact instance. *)
Definition qn (q : Q) : @num XQ := Fin (Q2Qc q).

Lemma qn_eq : forall a b, a == b -> qn a = qn b.
Proof. intros a b H. unfold qn. now rewrite (Q2Qc_eq _ _ H). Qed.
Lemma qn_inj : forall a b, qn a = qn b -> a == b.
Proof. intros a b H. injection H as H. rewrite <- (Qred_correct a), <- (Qred_correct b), H. reflexivity. Qed.
Lemma qn_ofZ : forall z, @nofZ XQ z = qn (inject_Z z).
Proof. reflexivity. Qed.
Lemma qn_0 : @n0 XQ = qn 0. Proof. reflexivity. Qed.
Lemma qn_1 : @n1 XQ = qn 1. Proof. reflexivity. Qed.
Lemma qn_add : forall a b, nadd (qn a) (qn b) = qn (a + b).
Proof. intros. unfold qn. cbn [nadd XQ xq_add]. f_equal. apply Qc_is_canon. rewrite this_plus, !this_Q2Qc. reflexivity. Qed.
Lemma qn_sub : forall a b, nsub (qn a) (qn b) = qn (a - b).
Proof. intros. unfold qn. cbn [nsub XQ xq_sub]. f_equal. apply Qc_is_canon. rewrite this_minus, !this_Q2Qc. reflexivity. Qed.
Lemma qn_mul : forall a b, nmul (qn a) (qn b) = qn (a * b).
Proof. intros. unfold qn. cbn [nmul XQ xq_mul]. f_equal. apply Qc_is_canon. rewrite this_mult, !this_Q2Qc. reflexivity. Qed.
Lemma qn_div : forall a b, ~ b == 0 -> ndiv (qn a) (qn b) = qn (a / b).
Proof.
  intros a b H. unfold qn. cbn [ndiv XQ]. rewrite xq_div_fin.
  - f_equal. apply Qc_is_canon. rewrite this_div, !this_Q2Qc. reflexivity.
  - intros E. apply H. rewrite <- (this_Q2Qc b), E. reflexivity.
Qed.
Lemma qn_lt : forall a b, nltb (qn a) (qn b) = true <-> a < b.
Proof.
  intros. unfold qn. cbn [nltb XQ]. rewrite xq_ltb_fin, qc_ltb_lt, Qc_lt_this, !this_Q2Qc. reflexivity.
Qed.
Lemma qn_ge : forall a b, nltb (qn a) (qn b) = false <-> b <= a.
Proof.
  intros. unfold qn. cbn [nltb XQ]. rewrite xq_ltb_fin, qc_ltb_ge, Qc_le_this, !this_Q2Qc. reflexivity.
Qed.
Lemma qn_eqb : forall a b, neqb (qn a) (qn b) = true <-> a == b.
Proof.
  intros. unfold qn. cbn [neqb XQ xq_eqb]. rewrite qc_eqb_eq. split; [|intros H; now apply Q2Qc_eq].
  intros H. rewrite <- (this_Q2Qc a), H, this_Q2Qc. reflexivity.
Qed.
Lemma qn_neqb : forall a b, neqb (qn a) (qn b) = false <-> ~ a == b.
Proof.
  intros. destruct (neqb (qn a) (qn b)) eqn:E.
  - apply qn_eqb in E. split; [discriminate|contradiction].
  - split; [|reflexivity]. intros _ H. apply qn_eqb in H. congruence.
Qed.
Lemma qn_lit : forall a b, @nlit XQ a b = qn (a # b).
Proof.
  intros. unfold nlit. rewrite !qn_ofZ, qn_div by discriminate. apply qn_eq.
  rewrite (Qmake_Qdiv a b). reflexivity.
Qed.
Lemma qn_pow2 : forall e, @npow2 XQ e = qn (2 ^ e).
Proof. reflexivity. Qed.

Lemma q_round_eq : forall a b, a == b -> q_round a = q_round b.
Proof.
  intros a b H. unfold q_round.
  assert (Qle_bool 0 a = Qle_bool 0 b) as ->.
  { destruct (Qle_bool 0 a) eqn:E; symmetry.
    - apply Qle_bool_iff in E. apply Qle_bool_iff. now rewrite <- H.
    - destruct (Qle_bool 0 b) eqn:E2; [|reflexivity]. apply Qle_bool_iff in E2. rewrite <- H in E2. apply Qle_bool_iff in E2. congruence. }
  destruct (Qle_bool 0 b); [apply Qfloor_comp | f_equal; apply Qfloor_comp]; now rewrite H.
Qed.
Lemma qn_round : forall a, nround (qn a) = qn (inject_Z (q_round a)).
Proof. intros. unfold qn. cbn [nround GXQ nround_XQ]. rewrite (q_round_eq _ a) by apply this_Q2Qc. reflexivity. Qed.
Lemma qn_abs : forall a, nabs (qn a) = qn (Qabs a).
Proof.
  intros. unfold nabs. rewrite qn_0. destruct (nltb (qn a) (qn 0)) eqn:E.
  - apply qn_lt in E. rewrite qn_sub. apply qn_eq. rewrite Qabs_neg by lra. lra.
  - apply qn_ge in E. apply qn_eq. now rewrite Qabs_pos.
Qed.

(** What rounding does. *)
Lemma round_close_cases : forall a,
  round_close (qn a) = qn a \/
  exists z, round_close (qn a) = qn (inject_Z z) /\ Qabs (a - inject_Z z) < 1 # 10000.
Proof.
  intros. unfold round_close. rewrite qn_round, qn_sub, qn_abs, qn_lit.
  destruct (nltb _ _) eqn:E; [right|now left].
  apply qn_lt in E. exists (q_round a). split; [reflexivity|exact E].
Qed.
Lemma round_close_keep : forall a,
  (forall z, Qabs (a - inject_Z z) < 1 # 10000 -> a == inject_Z z) -> round_close (qn a) = qn a.
Proof.
  intros a H. destruct (round_close_cases a) as [E|(z & E & Hz)]; [exact E|].
  rewrite E. apply qn_eq. symmetry. now apply H.
Qed.

(** The grid the whole notes left over lie on while durations [n] are taken. *)
Definition grid (D n : Z) (x : Q) : Prop :=
  exists m, (0 < m)%Z /\ x == inject_Z m / inject_Z (Z.max 4 n * D).
Definition ladder (ns : list Z) : Prop :=
  ns = [] \/ ns = [16%Z] \/ ns = [8; 16]%Z \/ ns = [4; 8; 16]%Z \/ ns = [2; 4; 8; 16]%Z \/ ns = [1; 2; 4; 8; 16]%Z.
Fixpoint taken_sum (l : list Z) : Q := match l with [] => 0 | n :: t => / inject_Z n + taken_sum t end.

Lemma ladder_cons : forall n t, ladder (n :: t) -> ladder t /\ (n = 1 \/ n = 2 \/ n = 4 \/ n = 8 \/ n = 16)%Z /\
  (t = [] \/ exists u, t = (2 * n)%Z :: u).
Proof.
  unfold ladder. intros n t [H|[H|[H|[H|[H|H]]]]]; try discriminate; injection H as -> ->;
    (split; [tauto|split; [lia|]]); first [now left|right; eexists; reflexivity].
Qed.

Lemma injZ_pos : forall z, (0 < z)%Z -> 0 < inject_Z z.
Proof. intros z H. unfold Qlt. cbn. lia. Qed.
Lemma injZ_nz : forall z, (0 < z)%Z -> ~ inject_Z z == 0.
Proof. intros z H E. apply injZ_pos in H. lra. Qed.

(** [1/x] within a hundredth of [n], cleared of denominators. *)
Lemma near_cleared : forall x n, 0 < x -> Qabs (/ x - n) < 1 # 100 ->
  100 - 100 * n * x < x /\ 100 * n * x - 100 < x.
Proof.
  intros x n Hx H. apply Qabs_Qlt_condition in H. destruct H as [H1 H2].
  assert (Hi : / x * x == 1) by (field; lra).
  assert (A : (/ x - n) * x < (1 # 100) * x) by (apply Qmult_lt_r; assumption).
  assert (B : - (1 # 100) * x < (/ x - n) * x) by (apply Qmult_lt_r; assumption).
  split; lra.
Qed.

Lemma grid_hit : forall D n x, (1 <= D <= 24)%Z -> (n = 1 \/ n = 2 \/ n = 4 \/ n = 8 \/ n = 16)%Z -> grid D n x ->
  Qabs (/ x - inject_Z n) < 1 # 100 -> x == / inject_Z n.
Proof.
  intros D n x HD Hn (m & Hm & Hx) H.
  set (c := Z.max 4 n) in *.
  assert (Hc : (0 < c * D)%Z) by lia.
  assert (Hc' := injZ_pos _ Hc).
  assert (Px : 0 < x). { rewrite Hx. apply Qlt_shift_div_l; [exact Hc'|]. rewrite Qmult_0_l. now apply injZ_pos. }
  apply near_cleared in H; [|exact Px].
  assert (Ex : x * inject_Z (c * D) == inject_Z m) by (rewrite Hx; field; now apply injZ_nz).
  destruct H as [H1 H2].
  apply (Qmult_lt_r _ _ _ Hc') in H1. apply (Qmult_lt_r _ _ _ Hc') in H2.
  assert (A : 100 * inject_Z (c * D) - 100 * inject_Z n * inject_Z m < inject_Z m) by (rewrite <- Ex; lra).
  assert (B : 100 * inject_Z n * inject_Z m - 100 * inject_Z (c * D) < inject_Z m) by (rewrite <- Ex; lra).
  remember (c * D)%Z as P eqn:EP.
  assert (A' : (100 * P - 100 * n * m < m)%Z).
  { rewrite Zlt_Qlt. unfold Z.sub. rewrite inject_Z_plus, inject_Z_opp, !inject_Z_mult. change (inject_Z 100) with 100. lra. }
  assert (B' : (100 * n * m - 100 * P < m)%Z).
  { rewrite Zlt_Qlt. unfold Z.sub. rewrite inject_Z_plus, inject_Z_opp, !inject_Z_mult. change (inject_Z 100) with 100. lra. }
  assert (E : (P = n * m)%Z).
  { subst P. unfold c in *. clear - HD Hn Hm A' B'.
    destruct Hn as [-> | [-> | [-> | [-> | ->]]]]; cbn [Z.max Z.compare Pos.compare Pos.compare_cont] in *; lia. }
  rewrite Hx, E, inject_Z_mult. field. split; apply injZ_nz; lia.
Qed.

Lemma grid_take : forall D n x, (1 <= D)%Z -> (n = 1 \/ n = 2 \/ n = 4 \/ n = 8 \/ n = 16)%Z -> grid D n x -> / inject_Z n < x ->
  grid D n (x - / inject_Z n).
Proof.
  intros D n x HD Hn (m & Hm & Hx) H.
  set (c := Z.max 4 n) in *.
  assert (Hc : (0 < c * D)%Z) by lia.
  assert (Hc' := injZ_pos _ Hc).
  assert (Hk : exists k, (c = k * n)%Z).
  { unfold c. destruct Hn as [-> | [-> | [-> | [-> | ->]]]]; cbn; [exists 4%Z|exists 2%Z|exists 1%Z|exists 1%Z|exists 1%Z]; reflexivity. }
  destruct Hk as [k Hk].
  assert (E : inject_Z (c * D) * / inject_Z n == inject_Z (k * D)).
  { rewrite Hk, !inject_Z_mult. field. apply injZ_nz. lia. }
  exists (m - k * D)%Z. split.
  - rewrite Hx in H. apply (Qmult_lt_r _ _ _ Hc') in H.
    assert (F : inject_Z m / inject_Z (c * D) * inject_Z (c * D) == inject_Z m) by (field; now apply injZ_nz).
    rewrite F, Qmult_comm, E in H. rewrite <- Zlt_Qlt in H. lia.
  - fold c. rewrite Hx. unfold Z.sub. rewrite inject_Z_plus, inject_Z_opp, <- E. field. split; apply injZ_nz; lia.
Qed.

Lemma grid_next : forall D n x, (1 <= D)%Z -> (n = 1 \/ n = 2 \/ n = 4 \/ n = 8 \/ n = 16)%Z -> grid D n x -> grid D (2 * n) x.
Proof.
  intros D n x HD Hn (m & Hm & Hx).
  assert (Hk : exists k, (0 < k)%Z /\ (Z.max 4 (2 * n) = k * Z.max 4 n)%Z).
  { destruct Hn as [-> | [-> | [-> | [-> | ->]]]]; cbn; [exists 1%Z|exists 1%Z|exists 2%Z|exists 2%Z|exists 2%Z]; split; reflexivity. }
  destruct Hk as (k & Hk & E). exists (k * m)%Z. split; [lia|].
  rewrite Hx, E, !inject_Z_mult. field.
  repeat split; apply injZ_nz; lia.
Qed.

Lemma inv_flip : forall x n, 0 < x -> 0 < n -> / x < n -> / n < x.
Proof.
  intros x n Hx Hn H.
  assert (Hi : / x * x == 1) by (field; lra). assert (Hj : / n * n == 1) by (field; lra).
  apply (Qmult_lt_r _ _ _ Hx) in H. apply (Qmult_lt_r _ _ _ Hn). lra.
Qed.

(** Taking durations away: what is taken adds up exactly, or something remains. *)
Lemma decompose_exact : forall D, (1 <= D <= 24)%Z -> forall fuel ns x r l, ladder ns -> 0 < x ->
  match ns with n :: _ => grid D n x | [] => True end ->
  decompose fuel ns (qn (/ x)) = Some (r, l) ->
  (r = n0 /\ taken_sum l == x /\ l <> []) \/ neqb r n0 = false.
Proof.
  intros D HD. induction fuel as [|f IH]; intros ns x r l Hl Px Hg H; [discriminate|].
  cbn [decompose] in H. destruct ns as [|n t].
  - injection H as <- <-. right. rewrite qn_0. apply qn_neqb. intros E.
    assert (0 < / x) by (now apply Qinv_lt_0_compat). lra.
  - destruct (ladder_cons _ _ Hl) as (Ht & Hn & Hnx).
    rewrite !qn_ofZ, qn_sub, qn_abs, qn_lit in H.
    destruct (nltb _ (qn (1 # 100))) eqn:E1.
    + apply qn_lt in E1. injection H as <- <-. left. split; [reflexivity|]. split; [|discriminate].
      cbn [taken_sum]. rewrite Qplus_0_r. symmetry. eapply grid_hit; eassumption.
    + clear E1. destruct (nltb (qn (/ x)) (qn (inject_Z n))) eqn:E2.
      * apply qn_lt in E2.
        assert (Hnp : 0 < inject_Z n) by (apply injZ_pos; lia).
        assert (Hx1 : / inject_Z n < x).
        { now apply inv_flip. }
        rewrite !qn_1, qn_div in H by (intros F; assert (0 < / x) by (now apply Qinv_lt_0_compat); lra).
        rewrite (qn_div 1 (inject_Z n)) in H by (apply injZ_nz; lia).
        rewrite qn_sub in H.
        assert (F : 1 / / x - 1 / inject_Z n == x - / inject_Z n) by (field; split; [apply injZ_nz; lia|lra]).
        rewrite qn_div in H by (rewrite F; lra).
        rewrite (qn_eq _ (/ (x - / inject_Z n))) in H by (unfold Qdiv at 1; rewrite Qmult_1_l, F; reflexivity).
        destruct (decompose f (n :: t) (qn (/ (x - / inject_Z n)))) as [[r' l']|] eqn:E; [|discriminate].
        injection H as <- <-.
        assert (Px' : 0 < x - / inject_Z n) by lra.
        destruct (IH (n :: t) (x - / inject_Z n) _ _ Hl Px' (grid_take D n x ltac:(lia) Hn Hg Hx1) E) as [(-> & S & _)|R]; [left|now right].
        split; [reflexivity|]. split; [cbn [taken_sum]; rewrite S; lra|discriminate].
      * eapply IH; [exact Ht|exact Px| |exact H].
        destruct Hnx as [->|(u & ->)]; [exact I|]. eapply grid_next; [lia|exact Hn|exact Hg].
Qed.

(** The loop ends: [k] whole durations of the current kind are left at most. *)
Lemma decompose_ends : forall t n k fuel x, ladder (n :: t) -> 0 < x -> x * inject_Z n <= inject_Z (Z.of_nat k) ->
  (k + 2 + 3 * List.length t <= fuel)%nat -> decompose fuel (n :: t) (qn (/ x)) <> None.
Proof.
  induction t as [|n' t IHt]; intros n k fuel; revert k; induction fuel as [|f IH]; intros k x Hl Px Hk Hf; try lia.
  all: destruct (ladder_cons _ _ Hl) as (Ht & Hn & Hnx).
  all: assert (Hnp : 0 < inject_Z n) by (apply injZ_pos; lia).
  all: cbn [decompose]; rewrite !qn_ofZ, qn_sub, qn_abs, qn_lit; destruct (nltb _ (qn (1 # 100))); [discriminate|].
  all: destruct (nltb (qn (/ x)) (qn (inject_Z n))) eqn:E2.
  1, 3: apply qn_lt in E2;
        assert (Hx1 : / inject_Z n < x) by (now apply inv_flip);
        rewrite !qn_1, qn_div by (intros F; assert (0 < / x) by (now apply Qinv_lt_0_compat); lra);
        rewrite (qn_div 1 (inject_Z n)) by (apply injZ_nz; lia);
        rewrite qn_sub;
        assert (F : 1 / / x - 1 / inject_Z n == x - / inject_Z n) by (field; split; [apply injZ_nz; lia|lra]);
        rewrite qn_div by (rewrite F; lra);
        rewrite (qn_eq _ (/ (x - / inject_Z n))) by (unfold Qdiv at 1; rewrite Qmult_1_l, F; reflexivity);
        (destruct k as [|k]; [exfalso; change (inject_Z (Z.of_nat 0)) with 0 in Hk; assert (0 < x * inject_Z n) by (now apply Qmult_lt_0_compat); lra|]);
        assert (Hk' : (x - / inject_Z n) * inject_Z n <= inject_Z (Z.of_nat k)) by
          (assert (G : (x - / inject_Z n) * inject_Z n == x * inject_Z n - 1) by (field; apply injZ_nz; lia);
           rewrite G; rewrite Nat2Z.inj_succ in Hk; unfold Z.succ in Hk; rewrite inject_Z_plus in Hk; change (inject_Z 1) with 1 in Hk; lra);
        specialize (IH k (x - / inject_Z n) Hl ltac:(lra) Hk' ltac:(lia)).
  1: destruct (decompose f [n] (qn (/ (x - / inject_Z n)))) as [[? ?]|]; [discriminate|contradiction].
  1: destruct (decompose f (n :: n' :: t) (qn (/ (x - / inject_Z n)))) as [[? ?]|]; [discriminate|contradiction].
  - destruct f; [lia|]. discriminate.
  - apply qn_ge in E2. destruct Hnx as [F|(u & F)]; [discriminate|]. injection F as -> ->.
    apply (IHt (2 * n)%Z 2%nat).
    + exact Ht. + exact Px.
    + assert (G : x * inject_Z n <= 1).
      { assert (Hi : / x * x == 1) by (field; lra). assert (inject_Z n * x <= / x * x) by (apply Qmult_le_compat_r; lra). lra. }
      rewrite inject_Z_mult. change (inject_Z 2) with 2. change (inject_Z (Z.of_nat 2)) with 2. lra.
    + cbn [List.length] in Hf. lia.
Qed.

(** What is taken are whole, half, ..., sixteenth notes. *)
Lemma decompose_pos : forall fuel ns r r' l, ladder ns -> decompose (N := XQ) fuel ns r = Some (r', l) -> Forall (fun n => (0 < n)%Z) l.
Proof.
  induction fuel as [|f IH]; intros ns r r' l Hl H; [discriminate|]. cbn [decompose] in H. destruct ns as [|n t].
  - injection H as <- <-. constructor.
  - destruct (ladder_cons _ _ Hl) as (Ht & Hn & _).
    assert (0 < n)%Z by lia.
    destruct (nltb _ _); [injection H as <- <-; apply Forall_cons; [assumption|constructor]|].
    destruct (nltb _ _); [|eapply IH; [exact Ht|exact H]].
    destruct (decompose f _ _) as [[a b]|] eqn:E; [|discriminate]. injection H as <- <-.
    apply Forall_cons; [assumption|]. eapply IH; [exact Hl|exact E].
Qed.

Lemma ladder_all : ladder [1; 2; 4; 8; 16]%Z.
Proof. unfold ladder. tauto. Qed.

Lemma hit_close : forall x n, 0 < x -> (n = 1 \/ n = 2 \/ n = 4 \/ n = 8 \/ n = 16)%Z -> Qabs (/ x - inject_Z n) < 1 # 100 ->
  Qabs (/ inject_Z n - x) < 1 # 99.
Proof.
  intros x n Px Hn H. apply near_cleared in H; [|exact Px]. destruct H as [H1 H2].
  apply Qabs_Qlt_condition.
  destruct Hn as [-> | [-> | [-> | [-> | ->]]]].
  - change (/ inject_Z 1) with 1. change (inject_Z 1) with 1 in *. split; lra.
  - change (/ inject_Z 2) with (1 # 2). change (inject_Z 2) with 2 in *. split; lra.
  - change (/ inject_Z 4) with (1 # 4). change (inject_Z 4) with 4 in *. split; lra.
  - change (/ inject_Z 8) with (1 # 8). change (inject_Z 8) with 8 in *. split; lra.
  - change (/ inject_Z 16) with (1 # 16). change (inject_Z 16) with 16 in *. split; lra.
Qed.

Lemma decompose_close : forall fuel ns x r l, ladder ns -> 0 < x ->
  decompose fuel ns (qn (/ x)) = Some (r, l) ->
  (r = n0 /\ Qabs (taken_sum l - x) < 1 # 99) \/ neqb r n0 = false.
Proof.
  induction fuel as [|f IH]; intros ns x r l Hl Px H; [discriminate|].
  cbn [decompose] in H. destruct ns as [|n t].
  - injection H as <- <-. right. rewrite qn_0. apply qn_neqb. intros E.
    assert (0 < / x) by (now apply Qinv_lt_0_compat). lra.
  - destruct (ladder_cons _ _ Hl) as (Ht & Hn & Hnx).
    rewrite !qn_ofZ, qn_sub, qn_abs, qn_lit in H.
    destruct (nltb _ (qn (1 # 100))) eqn:E1.
    + apply qn_lt in E1. injection H as <- <-. left. split; [reflexivity|].
      cbn [taken_sum]. rewrite Qplus_0_r. now apply hit_close.
    + clear E1. destruct (nltb (qn (/ x)) (qn (inject_Z n))) eqn:E2.
      * apply qn_lt in E2.
        assert (Hnp : 0 < inject_Z n) by (apply injZ_pos; lia).
        assert (Hx1 : / inject_Z n < x) by (now apply inv_flip).
        rewrite !qn_1, qn_div in H by (intros F; assert (0 < / x) by (now apply Qinv_lt_0_compat); lra).
        rewrite (qn_div 1 (inject_Z n)) in H by (apply injZ_nz; lia).
        rewrite qn_sub in H.
        assert (F : 1 / / x - 1 / inject_Z n == x - / inject_Z n) by (field; split; [apply injZ_nz; lia|lra]).
        rewrite qn_div in H by (rewrite F; lra).
        rewrite (qn_eq _ (/ (x - / inject_Z n))) in H by (unfold Qdiv at 1; rewrite Qmult_1_l, F; reflexivity).
        destruct (decompose f (n :: t) (qn (/ (x - / inject_Z n)))) as [[r' l']|] eqn:E; [|discriminate].
        injection H as <- <-.
        assert (Px' : 0 < x - / inject_Z n) by lra.
        destruct (IH (n :: t) (x - / inject_Z n) _ _ Hl Px' E) as [(-> & S)|R]; [left|now right].
        split; [reflexivity|]. cbn [taken_sum].
        assert (G : / inject_Z n + taken_sum l' - x == taken_sum l' - (x - / inject_Z n)) by ring.
        rewrite G. exact S.
      * eapply IH; [exact Ht|exact Px|exact H].
Qed.

(** Beats of what is taken. *)
Lemma wrap_neg : forall k, (0 <= k <= 2147483647)%Z -> wrap32 (- k) = (- k)%Z.
Proof. intros k H. apply wrap32_id. unfold in_int32, min_int32, max_int32. lia. Qed.
Lemma len_beats : forall a k, 0 < a -> (0 <= k <= 2147483647)%Z ->
  note_length_beats (qn a) k = qn (4 / a * (2 - 2 ^ (- k))).
Proof.
  intros a k Ha Hk. unfold note_length_beats. rewrite wrap_neg by exact Hk.
  rewrite !qn_ofZ, qn_pow2, qn_div by lra. rewrite qn_sub, qn_mul. reflexivity.
Qed.

Lemma beats_some : forall l : list (@component XQ),
  dur_beats (Some l) = (fix go (l : list component) (acc : num) : option num :=
     match l with
     | [] => Some acc
     | x :: t => match comp_beats x with Some b => go t (nadd acc b) | None => None end
     end) l n0.
Proof. reflexivity. Qed.

Lemma tied_beats : forall l acc, Forall (fun n => (0 < n)%Z) l ->
  (fix go (l : list (@component XQ)) (acc : num) : option num :=
     match l with
     | [] => Some acc
     | x :: t => match comp_beats x with Some b => go t (nadd acc b) | None => None end
     end) (map (fun n => CLen (nofZ n) 0) l) (qn acc) = Some (qn (acc + 4 * taken_sum l)).
Proof.
  induction l as [|n t IH]; intros acc H.
  - cbn [map taken_sum]. f_equal. apply qn_eq. ring.
  - inversion H as [|? ? Hn Ht]; subst. cbn [map comp_beats taken_sum].
    rewrite qn_ofZ, len_beats, qn_add by (first [now apply injZ_pos|lia]).
    rewrite IH by exact Ht. f_equal. apply qn_eq. change (2 ^ (- 0)) with 1. field. apply injZ_nz. exact Hn.
Qed.

Lemma taken_beats : forall l, Forall (fun n => (0 < n)%Z) l ->
  dur_beats (Some (@taken_duration XQ l)) = Some (qn (4 * taken_sum l)).
Proof.
  intros l H.
  assert (T : dur_beats (Some (map (fun n => @CLen XQ (nofZ n) 0) l)) = Some (qn (4 * taken_sum l))).
  { rewrite beats_some, qn_0, tied_beats by exact H. f_equal. apply qn_eq. ring. }
  unfold taken_duration. destruct l as [|a [|b [|]]]; try exact T.
  destruct (b =? 2 * a)%Z eqn:E; [|exact T].
  apply Z.eqb_eq in E. subst b. inversion H as [|? ? Ha _]; subst.
  rewrite beats_some. cbn [comp_beats]. rewrite qn_ofZ, len_beats, qn_0, qn_add by (first [now apply injZ_pos|lia]).
  f_equal. apply qn_eq. cbn [taken_sum]. change (2 ^ (- (1))) with (1 # 2). rewrite inject_Z_mult. change (inject_Z 2) with 2.
  field. apply injZ_nz. exact Ha.
Qed.

Lemma positive_valid : forall q, 0 < q -> negb (nleb (qn q) n0) = true.
Proof.
  intros q H. cbn [nleb XQ]. unfold qn. change (@n0 XQ) with (Fin (Q2Qc 0)). rewrite xq_leb_fin. apply negb_true_iff.
  destruct (qc_leb _ _) eqn:E; [|reflexivity]. apply qc_leb_le in E. rewrite Qc_le_this, !this_Q2Qc in E. lra.
Qed.

Lemma taken_valid : forall l, Forall (fun n => (0 < n)%Z) l -> dur_valid (Some (@taken_duration XQ l)) = true.
Proof.
  intros l H.
  assert (T : dur_valid (Some (map (fun n => @CLen XQ (nofZ n) 0) l)) = true).
  { unfold dur_valid. cbn [comp_valid]. induction H as [|n t Hn Ht IH]; [reflexivity|].
    cbn [map]. rewrite IH. cbn [comp_valid]. rewrite qn_ofZ, positive_valid by (now apply injZ_pos). reflexivity. }
  unfold taken_duration. destruct l as [|a [|b [|]]]; try exact T.
  destruct (b =? 2 * a)%Z eqn:E; [|exact T]. inversion H as [|? ? Ha _]; subst.
  unfold dur_valid. cbn [comp_valid]. rewrite qn_ofZ, positive_valid by (now apply injZ_pos). reflexivity.
Qed.

(** Every number written is positive. *)
Definition lengths_pos (c : @component XQ) : Prop := match c with CLen (Fin q) k => (0 < this q) /\ (0 <= k)%Z | _ => False end.

Lemma fuel_enough : forall x, 0 < x -> x <= 10000 -> decompose decompose_fuel [1; 2; 4; 8; 16]%Z (qn (/ x)) <> None.
Proof.
  intros x H H1. apply (decompose_ends _ _ (Z.to_nat 10000)); [apply ladder_all|exact H| |].
  - rewrite Z2Nat.id by lia. change (inject_Z 1) with 1. change (inject_Z 10000) with 10000. lra.
  - unfold decompose_fuel. cbn [List.length]. lia.
Qed.

(** A length of [4 / a] beats, or as close to it as it gets. *)
Lemma idiomatic_taken : forall a', 0 < a' -> 1 # 10000 <= a' -> forall (P : Q -> Prop),
  (forall l, Qabs (taken_sum l - / a') < 1 # 99 -> (forall D, (1 <= D <= 24)%Z -> grid D 1 (/ a') -> taken_sum l == / a') -> P (4 * taken_sum l)) ->
  P (4 / a') ->
  exists d b, match decompose decompose_fuel [1; 2; 4; 8; 16]%Z (qn a') with
              | None => RErr "fuel"%string
              | Some (r, l) => if neqb r n0 then ROk (Some (taken_duration l)) else ROk (Some [CLen (qn a') 0%Z])
              end = ROk (Some d) /\ dur_beats (Some d) = Some (qn b) /\ dur_valid (Some d) = true /\ P b.
Proof.
  intros a' Pa Ha P H1 H2.
  assert (Px : 0 < / a') by (now apply Qinv_lt_0_compat).
  assert (Hx : / a' <= 10000).
  { assert (Hi : / a' * a' == 1) by (field; lra). assert (B : / a' * (1 # 10000) <= / a' * a').
    { rewrite !(Qmult_comm (/ a')). apply Qmult_le_compat_r; lra. }
    lra. }
  assert (E0 : qn a' = qn (/ / a')) by (apply qn_eq; now rewrite Qinv_involutive).
  rewrite E0. assert (F := fuel_enough _ Px Hx).
  destruct (decompose decompose_fuel _ (qn (/ / a'))) as [[r l]|] eqn:E; [|contradiction].
  assert (Pl := decompose_pos _ _ _ _ _ ladder_all E).
  destruct (neqb r n0) eqn:R.
  - exists (taken_duration l), (4 * taken_sum l). split; [reflexivity|]. split; [now apply taken_beats|]. split; [now apply taken_valid|].
    apply H1.
    + destruct (decompose_close _ _ _ _ _ ladder_all Px E) as [(_ & C)|C]; [exact C|congruence].
    + intros D HD G. destruct (decompose_exact D HD _ _ _ _ _ ladder_all Px G E) as [(_ & C & _)|C]; [exact C|congruence].
  - exists [CLen (qn (/ / a')) 0%Z], (4 / a'). split; [reflexivity|].
    assert (Pa' : 0 < / / a') by (now apply Qinv_lt_0_compat). split.
    + rewrite beats_some. cbn [comp_beats]. rewrite len_beats, qn_0, qn_add by (first [exact Pa'|lia]).
      f_equal. apply qn_eq. change (2 ^ (- 0)) with 1. rewrite Qinv_involutive. field. lra.
    + split; [|exact H2]. unfold dur_valid. cbn [comp_valid]. now rewrite positive_valid.
Qed.

(** Lengths on a coarse enough grid are exact. *)
Lemma idiomatic_exact : forall D m, (1 <= D <= 24)%Z -> (1 <= m <= 40000 * D)%Z ->
  exists d b, idiomatic (qn (4 * inject_Z D / inject_Z m)) 0 = ROk (Some d) /\
    dur_beats (Some d) = Some (qn b) /\ dur_valid (Some d) = true /\ b == inject_Z m / inject_Z D.
Proof.
  intros D m HD Hm. unfold idiomatic. cbn [Z.eqb].
  assert (PD := injZ_pos D ltac:(lia)). assert (Pm := injZ_pos m ltac:(lia)).
  set (a := 4 * inject_Z D / inject_Z m).
  assert (Pa : 0 < a) by (unfold a; apply Qlt_shift_div_l; lra).
  assert (Am : a * inject_Z m == 4 * inject_Z D) by (unfold a; field; lra).
  assert (La : 1 # 10000 <= a).
  { unfold a. apply Qle_shift_div_l; [exact Pm|].
    assert (inject_Z m <= 40000 * inject_Z D).
    { change 40000 with (inject_Z 40000). rewrite <- inject_Z_mult, <- Zle_Qle. lia. }
    lra. }
  rewrite round_close_keep.
  - apply idiomatic_taken; [exact Pa|exact La| |].
    + intros l _ H. rewrite (H D HD).
      * unfold a. field. split; lra.
      * exists m. split; [lia|]. cbn [Z.max Z.compare Pos.compare Pos.compare_cont]. unfold a. rewrite inject_Z_mult. change (inject_Z 4) with 4. field. split; lra.
    + unfold a. field. split; lra.
  - intros z Hz. apply Qabs_Qlt_condition in Hz. destruct Hz as [H1 H2].
    apply (Qmult_lt_r _ _ _ Pm) in H1. apply (Qmult_lt_r _ _ _ Pm) in H2.
    assert (z > 0)%Z.
    { destruct (Z_lt_le_dec 0 z); [lia|]. exfalso.
      assert (inject_Z z <= 0) by (change 0 with (inject_Z 0); rewrite <- Zle_Qle; lia).
      assert (inject_Z z * inject_Z m <= 0).
      { assert (inject_Z z * inject_Z m <= 0 * inject_Z m) by (apply Qmult_le_compat_r; lra). lra. }
      assert ((1 # 10000) * inject_Z m <= a * inject_Z m) by (apply Qmult_le_compat_r; lra). lra. }
    assert (A : (1000000 * (4 * D - z * m) < 100 * m)%Z).
    { rewrite Zlt_Qlt. unfold Z.sub. rewrite !inject_Z_mult, inject_Z_plus, inject_Z_opp, !inject_Z_mult.
      change (inject_Z 1000000) with 1000000. change (inject_Z 4) with 4. change (inject_Z 100) with 100. lra. }
    assert (B : (1000000 * (z * m - 4 * D) < 100 * m)%Z).
    { rewrite Zlt_Qlt. unfold Z.sub. rewrite !inject_Z_mult, inject_Z_plus, inject_Z_opp, !inject_Z_mult.
      change (inject_Z 1000000) with 1000000. change (inject_Z 4) with 4. change (inject_Z 100) with 100. lra. }
    assert (E : (4 * D = z * m)%Z) by nia.
    unfold a. assert (E' : 4 * inject_Z D == inject_Z z * inject_Z m).
    { change 4 with (inject_Z 4). rewrite <- !inject_Z_mult, E. reflexivity. }
    rewrite E'. field. lra.
Qed.

(** A length rounded to a whole number changes by little. *)
Lemma rounded_near : forall a z, 1 # 10000 <= a -> Qabs (a - inject_Z z) < 1 # 10000 ->
  1 <= inject_Z z /\ Qabs (/ inject_Z z - / a) < 1 # 9000.
Proof.
  intros a z Ha H. apply Qabs_Qlt_condition in H. destruct H as [H1 H2].
  assert (0 < z)%Z.
  { apply Z.lt_nge. intros F. assert (inject_Z z <= 0) by (change 0 with (inject_Z 0); rewrite <- Zle_Qle; exact F). lra. }
  assert (Hz : 1 <= inject_Z z) by (change 1 with (inject_Z 1); rewrite <- Zle_Qle; lia).
  split; [exact Hz|]. set (w := inject_Z z) in *. clearbody w.
  assert (Pa : 0 < a) by lra. assert (Pw : 0 < w) by lra.
  assert (E : / w - / a == (a - w) / (a * w)) by (field; split; lra).
  rewrite E. apply Qabs_Qlt_condition.
  assert (B : 9 # 10 <= a * w).
  { assert ((9 # 10) * 1 <= a * w); [|lra]. apply Qmult_le_compat_nonneg; lra. }
  split; [apply Qlt_shift_div_l|apply Qlt_shift_div_r]; lra.
Qed.

Lemma close_sum : forall s x y e, Qabs (s - x) < 1 # 99 -> Qabs (x - y) < 1 # 9000 -> e == 1 # 24 -> Qabs (4 * s - 4 * y) < e.
Proof.
  intros s x y e H1 H2 He. apply Qabs_Qlt_condition in H1. apply Qabs_Qlt_condition in H2. apply Qabs_Qlt_condition.
  rewrite He. split; lra.
Qed.

(** Any length at all is met to within a twenty-fourth of a beat. *)
Lemma idiomatic_close : forall a, 1 # 10000 <= a ->
  exists d b, idiomatic (qn a) 0 = ROk (Some d) /\ dur_beats (Some d) = Some (qn b) /\ dur_valid (Some d) = true /\
    Qabs (b - 4 / a) < 1 # 24.
Proof.
  intros a Ha. unfold idiomatic. cbn [Z.eqb].
  destruct (round_close_cases a) as [E|(z & E & Hz)]; rewrite E.
  - apply (idiomatic_taken a ltac:(lra) Ha (fun b => Qabs (b - 4 / a) < 1 # 24)).
    + intros l H _. assert (F : 4 / a == 4 * / a) by (field; lra). rewrite F. apply close_sum with (/ a); [exact H| |reflexivity].
      assert (G : / a - / a == 0) by ring. rewrite G. reflexivity.
    + assert (G : 4 / a - 4 / a == 0) by ring. rewrite G. reflexivity.
  - destruct (rounded_near _ _ Ha Hz) as [Hz1 Hn].
    apply (idiomatic_taken (inject_Z z) ltac:(lra) ltac:(lra) (fun b => Qabs (b - 4 / a) < 1 # 24)).
    + intros l H _. assert (F : 4 / a == 4 * / a) by (field; lra). rewrite F. apply close_sum with (/ inject_Z z); [exact H|exact Hn|reflexivity].
    + assert (G : 4 / inject_Z z - 4 / a == 4 * (/ inject_Z z - / a)) by (field; split; lra). rewrite G.
      apply Qabs_Qlt_condition in Hn. apply Qabs_Qlt_condition. split; lra.
Qed.

(** Dots: [2 - 2^-k] times the undotted length. *)
Definition dots_factor (k : Z) : Q := 2 - 2 ^ (- k).
Lemma dots_factor_range : forall k, (0 <= k)%Z -> 1 <= dots_factor k /\ dots_factor k < 2.
Proof.
  intros k Hk. unfold dots_factor.
  assert (P : 0 < 2 ^ (- k)) by (apply Qpower_0_lt; lra).
  assert (L : 2 ^ (- k) <= 1).
  { rewrite Qpower_opp. assert (1 <= 2 ^ k).
    { assert (E : 2 ^ k == inject_Z (2 ^ k)) by (rewrite Zpower_Qpower by exact Hk; reflexivity).
      rewrite E. change 1 with (inject_Z 1). rewrite <- Zle_Qle. assert (0 < 2 ^ k)%Z by (apply Z.pow_pos_nonneg; lia). lia. }
    assert (Q1 : / (2 ^ k) * 2 ^ k == 1) by (field; lra).
    assert (0 < / 2 ^ k) by (apply Qinv_lt_0_compat; lra).
    assert (/ 2 ^ k * 1 <= / 2 ^ k * 2 ^ k) by (rewrite !(Qmult_comm (/ 2 ^ k)); apply Qmult_le_compat_r; lra). lra. }
  split; lra.
Qed.

Lemma plain_beats : forall a k, 0 < a -> (0 <= k <= 2147483647)%Z ->
  dur_beats (Some [CLen (qn a) k]) = Some (qn (4 / a * dots_factor k)) /\ dur_valid (Some [CLen (qn a) k]) = true.
Proof.
  intros a k Pa Hk. split.
  - rewrite beats_some. cbn [comp_beats]. rewrite len_beats, qn_0, qn_add by assumption.
    f_equal. apply qn_eq. unfold dots_factor. ring.
  - unfold dur_valid. cbn [comp_valid]. now rewrite positive_valid.
Qed.

Lemma idiomatic_dotted_close : forall a k, 1 # 10000 <= a -> (1 <= k <= 2147483647)%Z ->
  exists d b, idiomatic (qn a) k = ROk (Some d) /\ dur_beats (Some d) = Some (qn b) /\ dur_valid (Some d) = true /\
    Qabs (b - 4 / a * dots_factor k) < 1 # 24.
Proof.
  intros a k Ha Hk. unfold idiomatic. destruct (Z.eqb_spec k 0) as [F|_]; [lia|].
  destruct (dots_factor_range k ltac:(lia)) as [C1 C2].
  destruct (round_close_cases a) as [E|(z & E & Hz)]; rewrite E.
  - destruct (plain_beats a k ltac:(lra) ltac:(lia)) as [B V]. exists [CLen (qn a) k], (4 / a * dots_factor k).
    repeat (split; [first [reflexivity|assumption]|]).
    assert (G : 4 / a * dots_factor k - 4 / a * dots_factor k == 0) by ring. rewrite G. reflexivity.
  - destruct (rounded_near _ _ Ha Hz) as [Hz1 Hn].
    destruct (plain_beats (inject_Z z) k ltac:(lra) ltac:(lia)) as [B V]. exists [CLen (qn (inject_Z z)) k], (4 / inject_Z z * dots_factor k).
    repeat (split; [first [reflexivity|assumption]|]).
    assert (G : 4 / inject_Z z * dots_factor k - 4 / a * dots_factor k == (/ inject_Z z - / a) * (4 * dots_factor k)) by (field; split; lra).
    rewrite G, Qabs_Qmult, (Qabs_pos (4 * dots_factor k)) by lra.
    assert (Qabs (/ inject_Z z - / a) * (4 * dots_factor k) <= Qabs (/ inject_Z z - / a) * 8).
    { rewrite !(Qmult_comm (Qabs _)). apply Qmult_le_compat_r; [lra|apply Qabs_nonneg]. }
    lra.
Qed.

Lemma idiomatic_dotted_exact : forall D d k, (1 <= D)%Z -> (1 <= d)%Z -> (1 <= k <= 2147483647)%Z -> (2 ^ k * d < 10000)%Z ->
  exists du b, idiomatic (qn (4 * inject_Z D * dots_factor k / inject_Z d)) k = ROk (Some du) /\ dur_beats (Some du) = Some (qn b) /\
    dur_valid (Some du) = true /\ b == inject_Z d / inject_Z D.
Proof.
  intros D d k HD Hd Hk Hs. unfold idiomatic. destruct (Z.eqb_spec k 0) as [F|_]; [lia|].
  destruct (dots_factor_range k ltac:(lia)) as [C1 C2].
  assert (PD := injZ_pos D ltac:(lia)). assert (Pd := injZ_pos d ltac:(lia)).
  set (a := 4 * inject_Z D * dots_factor k / inject_Z d).
  assert (Pa : 0 < a).
  { unfold a. apply Qlt_shift_div_l; [exact Pd|]. rewrite Qmult_0_l. apply Qmult_lt_0_compat; lra. }
  rewrite round_close_keep.
  - destruct (plain_beats a k Pa ltac:(lia)) as [B V]. exists [CLen (qn a) k], (4 / a * dots_factor k).
    repeat (split; [first [reflexivity|assumption]|]). unfold a. field. repeat split; lra.
  - intros z Hz. apply Qabs_Qlt_condition in Hz. destruct Hz as [H1 H2].
    assert (P2 : (0 < 2 ^ k)%Z) by (apply Z.pow_pos_nonneg; lia).
    assert (Pm := injZ_pos (2 ^ k * d) ltac:(nia)).
    assert (E2 : dots_factor k * inject_Z (2 ^ k) == inject_Z (2 * 2 ^ k - 1)).
    { unfold dots_factor, Z.sub. rewrite Qpower_opp, inject_Z_plus, inject_Z_mult, !Zpower_Qpower by lia.
      change (inject_Z 2) with 2. change (inject_Z (- (1))) with (- (1)). field.
      assert (0 < 2 ^ k) by (apply Qpower_0_lt; lra). lra. }
    assert (Am : a * inject_Z (2 ^ k * d) == inject_Z (4 * D * (2 * 2 ^ k - 1))).
    { rewrite (inject_Z_mult (4 * D)), <- E2. unfold a. rewrite !inject_Z_mult. change (inject_Z 4) with 4. field. lra. }
    apply (Qmult_lt_r _ _ _ Pm) in H1. apply (Qmult_lt_r _ _ _ Pm) in H2.
    remember (2 ^ k * d)%Z as M eqn:EM. remember (4 * D * (2 * 2 ^ k - 1))%Z as K eqn:EK.
    assert (A : (10000 * (K - z * M) < M)%Z).
    { rewrite Zlt_Qlt. unfold Z.sub. rewrite inject_Z_mult, inject_Z_plus, inject_Z_opp, inject_Z_mult. change (inject_Z 10000) with 10000. lra. }
    assert (B : (10000 * (z * M - K) < M)%Z).
    { rewrite Zlt_Qlt. unfold Z.sub. rewrite inject_Z_mult, inject_Z_plus, inject_Z_opp, inject_Z_mult. change (inject_Z 10000) with 10000. lra. }
    assert (E : (K = z * M)%Z) by lia.
    assert (F : a == inject_Z K / inject_Z M) by (rewrite <- Am; field; lra).
    rewrite F, E, inject_Z_mult. field. lra.
Qed.

(* ------------------------------------------------------------------ *)
(** Whole elements. *)
Section Elements.
Variable other : string -> @num XQ.

Lemma translate_form : forall e (p : @xpart XQ) c d, find_child "duration"%string e = Some c -> digits (text c) = Some d -> (1 <= d)%Z ->
  let k := Z.of_nat (List.length (find_children "dot"%string e)) in
  translate_duration other e p = idiomatic (qn (4 * inject_Z (p_div p) * dots_factor k / inject_Z d)) k.
Proof.
  intros e p c d Hc Hd H1 k. unfold translate_duration, child_text. rewrite Hc. cbn [rbind]. unfold parse_float. rewrite Hd.
  fold k. assert (Pd := injZ_pos d ltac:(lia)). rewrite !qn_ofZ, qn_mul.
  destruct (k >? 0)%Z eqn:Ek.
  - apply Z.gtb_lt in Ek. rewrite qn_1, qn_pow2, qn_sub, qn_lit.
    assert (F : (1 - 2 ^ (- (k + 1))) / (1 # 2) == dots_factor k).
    { unfold dots_factor. replace (- (k + 1))%Z with (- k + - (1))%Z by lia. rewrite Qpower_plus by lra. change (2 ^ (- (1))) with (1 # 2). field. }
    destruct (dots_factor_range k ltac:(lia)) as [C1 C2].
    rewrite qn_div by lra. rewrite (qn_eq _ _ F), qn_div by lra.
    rewrite qn_div.
    + f_equal. apply qn_eq. change (inject_Z 4) with 4. field. split; lra.
    + intros Z. assert (0 < inject_Z d / dots_factor k) by (apply Qlt_shift_div_l; lra). lra.
  - assert (K0 : k = 0%Z) by (rewrite Z.gtb_ltb in Ek; apply Z.ltb_ge in Ek; lia).
    rewrite K0, qn_div by lra. f_equal. apply qn_eq. change (inject_Z 4) with 4. change (dots_factor 0) with (2 - 1). field. lra.
Qed.

Lemma translate_exact : forall e (p : @xpart XQ) c d, find_child "duration"%string e = Some c -> digits (text c) = Some d ->
  (1 <= d)%Z -> (1 <= p_div p <= 24)%Z ->
  let k := Z.of_nat (List.length (find_children "dot"%string e)) in
  (k = 0 -> d <= 40000 * p_div p)%Z -> (0 < k -> 2 ^ k * d < 10000)%Z ->
  exists du b, translate_duration other e p = ROk (Some du) /\ dur_beats (Some du) = Some (qn b) /\ dur_valid (Some du) = true /\
    b == inject_Z d / inject_Z (p_div p).
Proof.
  intros e p c d Hc Hd H1 HD k H0 H2. rewrite (translate_form _ _ _ _ Hc Hd H1). fold k.
  assert (Pd := injZ_pos d ltac:(lia)).
  destruct (Z.eq_dec k 0) as [E|E].
  - rewrite E. rewrite (qn_eq _ (4 * inject_Z (p_div p) / inject_Z d)).
    + apply idiomatic_exact; [exact HD|]. specialize (H0 E). lia.
    + change (dots_factor 0) with (2 - 1). field. lra.
  - assert (0 < k)%Z by lia. specialize (H2 H). apply idiomatic_dotted_exact; try lia.
    split; [lia|]. apply Z.lt_le_incl, Z.lt_trans with 10000%Z; [|lia].
    assert (k < 2 ^ k)%Z by (apply Z.pow_gt_lin_r; lia). nia.
Qed.

Lemma translate_close : forall e (p : @xpart XQ) c d, find_child "duration"%string e = Some c -> digits (text c) = Some d ->
  (1 <= d <= 40000 * p_div p)%Z ->
  let k := Z.of_nat (List.length (find_children "dot"%string e)) in (k <= 2147483647)%Z ->
  exists du b, translate_duration other e p = ROk (Some du) /\ dur_beats (Some du) = Some (qn b) /\ dur_valid (Some du) = true /\
    Qabs (b - inject_Z d / inject_Z (p_div p)) < 1 # 24.
Proof.
  intros e p c d Hc Hd H1 k Hk. rewrite (translate_form _ _ _ _ Hc Hd ltac:(lia)). fold k.
  assert (Pd := injZ_pos d ltac:(lia)). assert (PD := injZ_pos (p_div p) ltac:(lia)).
  destruct (dots_factor_range k ltac:(lia)) as [C1 C2].
  set (a := 4 * inject_Z (p_div p) * dots_factor k / inject_Z d).
  assert (Ha : 1 # 10000 <= a).
  { unfold a. apply Qle_shift_div_l; [exact Pd|].
    assert (inject_Z d <= 40000 * inject_Z (p_div p)).
    { change 40000 with (inject_Z 40000). rewrite <- inject_Z_mult, <- Zle_Qle. lia. }
    assert (4 * inject_Z (p_div p) * 1 <= 4 * inject_Z (p_div p) * dots_factor k).
    { rewrite !(Qmult_comm (4 * _)). apply Qmult_le_compat_r; lra. }
    lra. }
  destruct (Z.eq_dec k 0) as [E|E].
  - rewrite E. destruct (idiomatic_close a Ha) as (du & b & X1 & X2 & X3 & X4). exists du, b. repeat (split; [assumption|]).
    assert (F : inject_Z d / inject_Z (p_div p) == 4 / a).
    { unfold a. rewrite E. change (dots_factor 0) with (2 - 1). field. split; lra. }
    rewrite F. exact X4.
  - destruct (idiomatic_dotted_close a k Ha ltac:(lia)) as (du & b & X1 & X2 & X3 & X4). exists du, b. repeat (split; [assumption|]).
    assert (F : inject_Z d / inject_Z (p_div p) == 4 / a * dots_factor k) by (unfold a; field; repeat split; lra).
    rewrite F. exact X4.
Qed.
End Elements.

(** A note that is too long is never written: the loop does not end. *)
Lemma decompose_hangs : forall fuel, decompose (N := XQ) fuel [1; 2; 4; 8; 16]%Z (qn 0) = None.
Proof.
  induction fuel as [|f IH]; [reflexivity|]. cbn [decompose].
  assert (E1 : nltb (nabs (nsub (qn 0) (@nofZ XQ 1))) (nlit 1 100) = false) by (vm_compute; reflexivity).
  assert (E2 : nltb (qn 0) (@nofZ XQ 1) = true) by (vm_compute; reflexivity).
  assert (E3 : ndiv n1 (nsub (ndiv n1 (qn 0)) (ndiv n1 (@nofZ XQ 1))) = qn 0) by (vm_compute; reflexivity).
  rewrite E1, E2, E3, IH. reflexivity.
Qed.

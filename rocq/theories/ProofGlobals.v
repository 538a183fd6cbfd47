(** Proofs of C17 and C18. *)
From Coq Require Import ZArith QArith Qcanon List String Bool Lia Lqa Arith Sorting.Sorted SpecFloat.
From Verif Require Import Base Num ModelPitch ModelDuration ModelInstruments ModelTypes ModelLisp
  ModelScore ProofNum SpecScore SpecVars SpecParts SpecSolo SpecTiming SpecGlobals ProofHeap ProofStep ProofInv ProofEvents
  ProofVoices ProofVars ProofSafe ProofTracks ProofSolo ProofTiming.
Import ListNotations.

(* ---------------- the two number systems are linearly ordered ---------------- *)

Lemma linear_XQ : @linear_order XQ.
Proof.
  assert (E : forall a b : xq, xq_eqb a b = true -> a = b).
  { intros [x| | |] [y| | |] H; try discriminate; auto. cbn in H. apply qc_eqb_eq in H. congruence. }
  assert (R : forall x, xq_eqb (Fin x) (Fin x) = true) by (intros; cbn; apply qc_eqb_refl).
  split.
  - intros a b H. change (xq_ltb a b = true) in H. change (xq_leb a b = true /\ xq_leb b a = false). unfold xq_leb. rewrite H. split; [reflexivity|].
    destruct a as [x| | |], b as [y| | |]; try discriminate; try reflexivity. cbn in *. apply qc_ltb_lt in H.
    apply orb_false_iff. split; [apply qc_ltb_ge, Qclt_le_weak, H|]. apply qc_eqb_neq. intros ->. exact (Qclt_not_eq _ _ H eq_refl).
  - intros a b H. change (xq_leb a b = true) in H. change (nisnan a) with (negb (xq_eqb a a)). change (nisnan b) with (negb (xq_eqb b b)). change (nltb b a) with (xq_ltb b a).
    unfold xq_leb in H. destruct a as [x| | |], b as [y| | |]; try discriminate; try (repeat split; reflexivity); rewrite ?R; try (repeat split; cbn; rewrite ?qc_eqb_refl; reflexivity).
    split; [reflexivity|]. split; [reflexivity|]. cbn in *. apply qc_ltb_ge. apply orb_true_iff in H. destruct H as [H|H]; [apply Qclt_le_weak, qc_ltb_lt, H|].
    apply qc_eqb_eq in H. subst. apply Qcle_refl.
  - intros a b. change (nisnan a) with (negb (xq_eqb a a)). change (nisnan b) with (negb (xq_eqb b b)). change (nltb a b) with (xq_ltb a b). change (nleb b a) with (xq_leb b a). unfold xq_leb.
    destruct a as [x| | |], b as [y| | |]; intros A B H; try discriminate; try reflexivity.
    cbn in *. apply qc_ltb_ge in H. apply Qcle_lt_or_eq in H. apply orb_true_iff. destruct H as [H|H]; [left; apply qc_ltb_lt, H|right; subst; apply qc_eqb_refl].
  - intros a b c. change (xq_leb a b = true -> xq_leb b c = true -> xq_leb a c = true).
    destruct a as [x| | |], b as [y| | |], c as [z| | |]; try discriminate; try reflexivity; rewrite ?xq_leb_fin.
    intros H1 H2. apply qc_leb_le in H1, H2. apply qc_leb_le. eapply Qcle_trans; eassumption.
  - intros a b. change (xq_eqb a b = true <-> xq_leb a b = true /\ xq_leb b a = true).
    destruct a as [x| | |], b as [y| | |]; try (cbn; tauto); try (split; [discriminate|intros [A B]; discriminate]).
    rewrite !xq_leb_fin. split.
    + intros H. cbn in H. apply qc_eqb_eq in H. subst. split; apply qc_leb_le, Qcle_refl.
    + intros [A B]. apply qc_leb_le in A, B. cbn. apply qc_eqb_eq. apply Qcle_antisym; assumption.
Qed.

(** Comparing floats is comparing these triples lexicographically. *)
Definition fkey (a : spec_float) : Z * Z * Z :=
  match a with
  | S754_zero _ => (0, 0, 0)
  | S754_infinity false => (2, 0, 0)
  | S754_infinity true => (-2, 0, 0)
  | S754_finite false m e => (1, e, Zpos m)
  | S754_finite true m e => (-1, - e, Zneg m)
  | S754_nan => (0, 0, 0)
  end%Z.
Definition lexlt (a b : Z * Z * Z) : Prop :=
  let '(a1, a2, a3) := a in let '(b1, b2, b3) := b in (a1 < b1 \/ (a1 = b1 /\ (a2 < b2 \/ (a2 = b2 /\ a3 < b3))))%Z.
Lemma fkey_ltb : forall a b, a <> S754_nan -> b <> S754_nan -> SFltb a b = true <-> lexlt (fkey a) (fkey b).
Proof.
  intros [sa|[]| |[] ma ea] [sb|[]| |[] mb eb] Ha Hb; try contradiction; unfold SFltb, SFcompare, fkey, lexlt;
    try (split; [discriminate|lia]); try (split; [lia|reflexivity]);
    destruct (Z.compare_spec ea eb); try (split; [discriminate|lia]); try (split; [lia|reflexivity]);
    rewrite ?Pos.compare_cont_spec; destruct (Pos.compare_spec ma mb) as [|L|L]; cbn;
    try (split; [discriminate|lia]); try (split; [lia|reflexivity]).
Qed.
Lemma fkey_eqb : forall a b, a <> S754_nan -> b <> S754_nan -> SFeqb a b = true <-> fkey a = fkey b.
Proof.
  assert (P : forall a b c a' b' c' : Z, (a, b, c) = (a', b', c') <-> (a = a' /\ b = b' /\ c = c')).
  { intros; split; [intros H; inversion H; auto|intros (-> & -> & ->); reflexivity]. }
  intros [sa|[]| |[] ma ea] [sb|[]| |[] mb eb] Ha Hb; try contradiction; unfold SFeqb, SFcompare, fkey; rewrite P;
    try (split; [discriminate|lia]); try (split; [lia|reflexivity]);
    destruct (Z.compare_spec ea eb); try (split; [discriminate|lia]); try (split; [lia|reflexivity]);
    rewrite ?Pos.compare_cont_spec; destruct (Pos.compare_spec ma mb) as [|L|L]; cbn;
    try (split; [discriminate|lia]); try (split; [lia|reflexivity]).
Qed.
Lemma fkey_leb : forall a b, SFleb a b = (SFltb a b || SFeqb a b)%bool.
Proof. intros. unfold SFleb, SFltb, SFeqb. destruct (SFcompare a b) as [[]|]; reflexivity. Qed.
Lemma linear_B64 : @linear_order B64.
Proof.
  assert (Nl : forall b, SFltb S754_nan b = false) by reflexivity.
  assert (Nr : forall b, SFltb b S754_nan = false) by (intros [| | |]; reflexivity).
  assert (El : forall b, SFeqb S754_nan b = false) by reflexivity.
  assert (Er : forall b, SFeqb b S754_nan = false) by (intros [| | |]; reflexivity).
  assert (Dn : forall a : spec_float, a = S754_nan \/ a <> S754_nan) by (intros []; (left; reflexivity) || (right; discriminate)).
  assert (Isn : forall a : spec_float, a <> S754_nan -> SFeqb a a = true) by (intros a H; apply fkey_eqb; auto).
  assert (Lx : forall a b, lexlt a b -> ~ lexlt b a /\ a <> b).
  { intros [[a1 a2] a3] [[b1 b2] b3] H. cbn in *. split; [lia|intros E; inversion E; lia]. }
  assert (Lt : forall a b, lexlt a b \/ a = b \/ lexlt b a).
  { intros [[a1 a2] a3] [[b1 b2] b3]. cbn.
    destruct (Z.lt_trichotomy a1 b1) as [|[->|]]; [left; lia| |right; right; lia].
    destruct (Z.lt_trichotomy a2 b2) as [|[->|]]; [left; lia| |right; right; lia].
    destruct (Z.lt_trichotomy a3 b3) as [|[->|]]; [left; lia|right; left; reflexivity|right; right; lia]. }
  assert (Ltr : forall a b c, lexlt a b -> lexlt b c -> lexlt a c).
  { intros [[a1 a2] a3] [[b1 b2] b3] [[c1 c2] c3]. cbn. lia. }
  assert (Le : forall a b, SFleb a b = true <-> (a <> S754_nan /\ b <> S754_nan /\ (lexlt (fkey a) (fkey b) \/ fkey a = fkey b))).
  { intros a b. rewrite fkey_leb, orb_true_iff. destruct (Dn a) as [->|Ha]; [rewrite Nl, El; split; [intros [H|H]; discriminate|tauto]|].
    destruct (Dn b) as [->|Hb]; [rewrite Nr, Er; split; [intros [H|H]; discriminate|tauto]|].
    rewrite fkey_ltb, fkey_eqb by assumption. tauto. }
  assert (Lb : forall a b, SFltb a b = true <-> (a <> S754_nan /\ b <> S754_nan /\ lexlt (fkey a) (fkey b))).
  { intros a b. destruct (Dn a) as [->|Ha]; [rewrite Nl; split; [discriminate|tauto]|].
    destruct (Dn b) as [->|Hb]; [rewrite Nr; split; [discriminate|tauto]|]. rewrite fkey_ltb by assumption. tauto. }
  assert (Fa : forall b, b = false <-> ~ b = true) by (intros []; intuition discriminate).
  assert (Na : forall a : spec_float, @nisnan B64 a = false <-> a <> S754_nan).
  { intros a. change (@nisnan B64 a) with (negb (SFeqb a a)). destruct (Dn a) as [->|Ha]; [cbn; split; [discriminate|tauto]|].
    rewrite Isn by exact Ha. cbn. tauto. }
  split.
  - intros a b H. change (SFltb a b = true) in H. change (SFleb a b = true /\ SFleb b a = false). rewrite Fa, !Le. apply Lb in H.
    destruct H as (A & B & H). destruct (Lx _ _ H) as [C D]. split; [tauto|]. intros (_ & _ & [E|E]); [tauto|congruence].
  - intros a b H. change (SFleb a b = true) in H. change (nltb b a) with (SFltb b a). rewrite !Na, Fa, Lb. apply Le in H.
    destruct H as (A & B & H). split; [exact A|]. split; [exact B|]. intros (_ & _ & C). destruct (Lx _ _ C) as [D E]. destruct H; [tauto|congruence].
  - intros a b. change (nltb a b) with (SFltb a b). change (nleb b a) with (SFleb b a). rewrite !Na, Fa, Lb, Le. intros A B H.
    split; [exact B|]. split; [exact A|]. destruct (Lt (fkey a) (fkey b)) as [C|[C|C]]; [tauto|right; congruence|left; exact C].
  - intros a b c. change (SFleb a b = true -> SFleb b c = true -> SFleb a c = true). rewrite !Le. intros (A & B & H1) (_ & C & H2).
    split; [exact A|]. split; [exact C|]. destruct H1 as [H1|H1], H2 as [H2|H2]; [left; eapply Ltr; eassumption|left; congruence|left; congruence|right; congruence].
  - intros a b. change (SFeqb a b = true <-> SFleb a b = true /\ SFleb b a = true). rewrite !Le.
    destruct (Dn a) as [->|Ha]; [rewrite El; split; [discriminate|tauto]|].
    destruct (Dn b) as [->|Hb]; [rewrite Er; split; [discriminate|tauto]|]. rewrite fkey_eqb by assumption. split.
    + intros E. split; (split; [assumption|split; [assumption|right; congruence]]).
    + intros [(_ & _ & [C|C]) (_ & _ & [D|D])]; auto. destruct (Lx _ _ C). tauto.
Qed.

Section Globals.
Context {N : Num}.
Variable LO : linear_order.

Lemma nan_lt : forall a b, nltb a b = true -> nisnan a = false /\ nisnan b = false.
Proof. intros a b H. apply (lo_lt LO) in H. destruct H as [H _]. apply (lo_le LO) in H. tauto. Qed.
Lemma lt_le_trans : forall a b c, nltb a b = true -> nleb b c = true -> nltb a c = true.
Proof.
  intros a b c H1 H2. destruct (nltb a c) eqn:E; [reflexivity|]. destruct (nan_lt _ _ H1) as [A B].
  destruct (lo_le LO _ _ H2) as (_ & C & _). pose proof (lo_total LO _ _ A C E) as D. 
  pose proof (lo_trans LO _ _ _ H2 D) as F. apply (lo_lt LO) in H1. destruct H1. congruence.
Qed.
Lemma le_lt_trans : forall a b c, nleb a b = true -> nltb b c = true -> nltb a c = true.
Proof.
  intros a b c H1 H2. destruct (nltb a c) eqn:E; [reflexivity|]. destruct (nan_lt _ _ H2) as [A B].
  destruct (lo_le LO _ _ H1) as (C & _ & _). pose proof (lo_total LO _ _ C B E) as D.
  pose proof (lo_trans LO _ _ _ D H1) as F. apply (lo_lt LO) in H2. destruct H2. congruence.
Qed.
Lemma lt_trans : forall a b c, nltb a b = true -> nltb b c = true -> nltb a c = true.
Proof. intros a b c H1 H2. eapply lt_le_trans; [exact H1|]. apply (lo_lt LO) in H2. tauto. Qed.
Lemma le_refl : forall a, nisnan a = false -> nleb a a = true.
Proof. intros a H. assert (E : neqb a a = true) by (unfold nisnan in H; destruct (neqb a a); [reflexivity|discriminate]). apply (lo_eq LO) in E. tauto. Qed.
Lemma lt_not : forall a b, nleb b a = true -> nltb a b = false.
Proof. intros a b H. apply (lo_le LO) in H. tauto. Qed.
Lemma not_le : forall a b, nisnan a = false -> nisnan b = false -> nleb a b = false -> nltb b a = true.
Proof. intros a b A B H. destruct (nltb b a) eqn:E; [reflexivity|]. pose proof (lo_total LO _ _ B A E). congruence. Qed.

(* ---------------- the recorded offsets are sorted ---------------- *)

Definition olt (a b : num) : Prop := nisnan a = true \/ nltb a b = true.
Record gsorted (g : global_attrs) : Prop := GS {
  gs_sort : StronglySorted olt (ga_offs g);
  gs_has : forall o, In o (ga_offs g) -> nisnan o = false -> aget neqb o (ga_itin g) <> None;
  gs_in : forall o us, aget neqb o (ga_itin g) = Some us -> exists o', In o' (ga_offs g) /\ neqb o o' = true }.

Lemma insert_in : forall x l y, In y (insert_offset x l) <-> y = x \/ In y l.
Proof.
  intros x l. induction l as [|z l IH]; intros y; cbn [insert_offset].
  - cbn. intuition congruence.
  - destruct (_ || _)%bool; cbn [In]; rewrite ?IH; intuition congruence.
Qed.
Lemma eq_sym_n : forall a b, neqb a b = true -> neqb b a = true.
Proof. intros a b H. apply (lo_eq LO) in H. apply (lo_eq LO). tauto. Qed.
Lemma eq_trans_n : forall a b c, neqb a b = true -> neqb b c = true -> neqb a c = true.
Proof. intros a b c H1 H2. apply (lo_eq LO) in H1, H2. apply (lo_eq LO). destruct H1, H2. split; eapply (lo_trans LO); eassumption. Qed.
Lemma olt_trans : forall a b c, olt a b -> olt b c -> nisnan b = false -> olt a c.
Proof. intros a b c [H1|H1] [H2|H2] E; unfold olt; try tauto; try congruence. right. eapply lt_trans; eassumption. Qed.
Lemma insert_sorted : forall x l, StronglySorted olt l -> (forall y, In y l -> neqb x y = false) -> StronglySorted olt (insert_offset x l).
Proof.
  intros x l. induction l as [|z l IH]; intros H D; cbn [insert_offset].
  - constructor; constructor.
  - inversion H; subst. destruct (nltb x z || _)%bool eqn:E.
    + constructor; [exact H|]. apply orb_true_iff in E. destruct E as [E|E].
      * constructor; [right; exact E|]. eapply Forall_impl; [|exact H3]. intros c Hc. destruct Hc as [Hc|Hc].
        { destruct (nan_lt _ _ E). congruence. }
        right. eapply lt_trans; eassumption.
      * apply andb_true_iff in E. destruct E as [E _]. apply Forall_forall. intros; left; exact E.
    + apply orb_false_iff in E. destruct E as [E1 E2]. constructor.
      * apply IH; [assumption|]. intros y Hy. apply D. right; exact Hy.
      * apply Forall_forall. intros y Hy. apply insert_in in Hy. rewrite Forall_forall in H3. destruct Hy as [->|Hy]; [|apply H3, Hy].
        destruct (nisnan z) eqn:Ez; [left; exact Ez|]. destruct (nisnan x) eqn:Ex; [discriminate|]. right.
        pose proof (lo_total LO _ _ Ex Ez E1) as Le. destruct (nltb z x) eqn:E3; [reflexivity|].
        pose proof (lo_total LO _ _ Ez Ex E3) as Le2. assert (neqb x z = true) by (apply (lo_eq LO); tauto).
        rewrite D in H0; [discriminate|left; reflexivity].
Qed.
Lemma eqb_cong : forall a b k, neqb a b = true -> neqb k a = neqb k b.
Proof.
  intros a b k H. destruct (neqb k a) eqn:E1, (neqb k b) eqn:E2; auto.
  - rewrite (eq_trans_n k a b) in E2; [discriminate|exact E1|exact H].
  - rewrite (eq_trans_n k b a) in E1; [discriminate|exact E2|apply eq_sym_n, H].
Qed.
Lemma eqb_comm : forall a b, neqb a b = neqb b a.
Proof. intros a b. destruct (neqb a b) eqn:E1, (neqb b a) eqn:E2; auto; apply eq_sym_n in E1 || apply eq_sym_n in E2; congruence. Qed.
Lemma aget_eq : forall (A : Type) (l : list (num * A)) a b, neqb a b = true -> aget neqb a l = aget neqb b l.
Proof.
  intros A l a b H. induction l as [|[k v] l IH]; [reflexivity|]. cbn [aget]. rewrite (eqb_cong _ _ k H), IH. reflexivity.
Qed.
Lemma aget_app_n : forall (A : Type) (l : list (num * A)) k o v, aget neqb k (l ++ [(o, v)]) =
  match aget neqb k l with Some x => Some x | None => if neqb k o then Some v else None end.
Proof.
  intros A l k o v. induction l as [|[k1 v1] l IH]; [cbn; rewrite (eqb_comm o k); reflexivity|].
  cbn [app aget]. destruct (neqb k1 k); [reflexivity|exact IH].
Qed.
Lemma aget_aset_n : forall (A : Type) (l : list (num * A)) k o v w, aget neqb o l = Some w ->
  aget neqb k (aset neqb o v l) = if neqb k o then Some v else aget neqb k l.
Proof.
  intros A l k o v w. induction l as [|[k1 v1] l IH]; intros H; [discriminate|]. cbn [aget aset] in *.
  destruct (neqb k1 o) eqn:E.
  - cbn [aget]. rewrite (eqb_comm k1 k), (eqb_cong _ _ k E). destruct (neqb k o); reflexivity.
  - cbn [aget]. rewrite IH by exact H. destruct (neqb k1 k) eqn:E3; [|reflexivity].
    destruct (neqb k o) eqn:E2; [|reflexivity]. rewrite (eq_trans_n k1 k o) in E; [discriminate|exact E3|exact E2].
Qed.
Lemma record_sorted : forall off u g, gsorted g -> gsorted (ga_record off u g).
Proof.
  intros off u g [A B C]. unfold ga_record. destruct (aget neqb off (ga_itin g)) as [us|] eqn:E.
  - split; cbn [ga_offs ga_itin]; [exact A| |].
    + intros o Ho Hn. rewrite (aget_aset_n _ _ _ _ _ us) by exact E. destruct (neqb o off); [discriminate|]. apply B; assumption.
    + intros o vs. rewrite (aget_aset_n _ _ _ _ _ us) by exact E. destruct (neqb o off) eqn:E2.
      * intros _. apply C in E. destruct E as [o' [E3 E4]]. exists o'. split; [exact E3|]. eapply eq_trans_n; eassumption.
      * apply C.
  - split; cbn [ga_offs ga_itin].
    + apply insert_sorted; [exact A|]. intros y Hy. destruct (neqb off y) eqn:E2; [|reflexivity].
      exfalso. assert (Hn : nisnan y = false). { apply (lo_eq LO) in E2. destruct E2 as [E2 _]. apply (lo_le LO) in E2. tauto. }
      apply (B y Hy Hn). rewrite <- (aget_eq _ _ off y); assumption.
    + intros o Ho Hn. rewrite aget_app_n. apply insert_in in Ho. destruct Ho as [->|Ho].
      * rewrite E. unfold nisnan in Hn. destruct (neqb off off); discriminate.
      * destruct (aget neqb o (ga_itin g)) eqn:E2; [discriminate|]. exfalso. exact (B o Ho Hn E2).
    + intros o us. rewrite aget_app_n. destruct (aget neqb o (ga_itin g)) eqn:E2.
      * intros _. apply C in E2. destruct E2 as [o' [E3 E4]]. exists o'. split; [apply insert_in; right; exact E3|exact E4].
      * destruct (neqb o off) eqn:E3; [|discriminate]. intros _. exists off. split; [apply insert_in; left; reflexivity|exact E3].
Qed.
Lemma empty_sorted : gsorted (GA [] []).
Proof. split; [constructor|intros o []|discriminate]. Qed.

Lemma step_globals : forall (L : label -> Prop) (s s' : score), lstep L s s' ->
  globals s' = globals s \/ exists off u, L LGlobal /\ globals s' = ga_record off u (globals s).
Proof.
  intros L s s' H. destruct H; try (left; reflexivity).
  - left. unfold emit_note in H0.
    destruct (nltb n0 _); [|inversion H0; auto]. destruct (_ || _)%bool; [inversion H0|].
    destruct (assign_channel _ _ _) as [[c s1]|m|m] eqn:E; inversion H0; subst.
    unfold assign_channel, rbind in E. destruct (determine_channel _ _ _); try discriminate.
    destruct (negb (chan_ok a)); try discriminate.
    destruct (existsb _ _); inversion E; subst; reflexivity.
  - right. exists off, u. split; [exact H0|reflexivity].
  - left. apply get_voice_store in H0. apply H0.
  - left. apply vend_loop_store.
  - left. eapply run_part_store in H. apply H.
Qed.
Lemma session_sorted : forall calls, gsorted (globals (session calls)).
Proof.
  intros calls. pose proof (session_reachable calls) as H. unfold reachable in H.
  eapply (lstar_inv _ (fun s => gsorted (globals s))); [|exact H|apply empty_sorted].
  intros a b Ha Hs. apply step_globals in Hs. destruct Hs as [-> | (off & u & _ & ->)]; [exact Ha|apply record_sorted, Ha].
Qed.

(* ---------------- windows ---------------- *)

Definition tl_of (g : global_attrs) (offs : list num) : list (num * part_update) :=
  flat_map (fun o => map (pair o) (ga_at g o)) offs.
Lemma due_app : forall a b st en, due (a ++ b) st en = due a st en ++ due b st en.
Proof. intros. unfold due. rewrite filter_app, map_app. reflexivity. Qed.
Lemma due_at : forall g o st en, due (map (pair o) (ga_at g o)) st en = if (nltb st o && nleb o en)%bool then ga_at g o else [].
Proof.
  intros g o st en. unfold due. induction (ga_at g o) as [|u us IH]; [destruct (_ && _)%bool; reflexivity|]. cbn [map filter].
  destruct (nltb st o && nleb o en)%bool; cbn [map]; [rewrite IH; reflexivity|exact IH].
Qed.
Lemma window_due : forall g st en offs, nisnan en = false -> StronglySorted olt offs ->
  in_window_offs g st en offs = due (tl_of g offs) st en.
Proof.
  intros g st en offs He. induction offs as [|o offs IH]; intros H; [reflexivity|]. cbn [in_window_offs tl_of flat_map].
  change (flat_map (fun o0 : num => map (pair o0) (ga_at g o0)) offs) with (tl_of g offs).
  inversion H; subst. rewrite due_app, due_at. destruct (nltb en o) eqn:E.
  - pose proof (lo_lt LO _ _ E) as [_ E1]. rewrite E1, andb_false_r. cbn [app].
    clear IH H H2. induction offs as [|o2 offs IH]; [reflexivity|]. inversion H3; subst. cbn [tl_of flat_map]. rewrite due_app, due_at.
    change (flat_map (fun o0 : num => map (pair o0) (ga_at g o0)) offs) with (tl_of g offs). rewrite <- IH by assumption.
    destruct H1 as [H1|H1]; [destruct (nan_lt _ _ E); congruence|].
    pose proof (lo_lt LO _ _ (lt_trans _ _ _ E H1)) as [_ E2]. rewrite E2, andb_false_r. reflexivity.
  - rewrite IH by assumption. destruct (nltb st o) eqn:E2; cbn [andb]; [|reflexivity].
    destruct (nan_lt _ _ E2) as [_ E3]. rewrite (lo_total LO _ _ He E3 E). reflexivity.
Qed.
Lemma due_split : forall g offs a b c, nleb a b = true -> nleb b c = true -> StronglySorted olt offs ->
  due (tl_of g offs) a c = due (tl_of g offs) a b ++ due (tl_of g offs) b c.
Proof.
  intros g offs a b c Hab Hbc H. induction offs as [|o offs IH]; [reflexivity|]. inversion H; subst. cbn [tl_of flat_map].
  change (flat_map (fun o0 : num => map (pair o0) (ga_at g o0)) offs) with (tl_of g offs).
  rewrite !due_app, !due_at, IH by assumption. clear IH.
  destruct (nleb o b) eqn:E1.
  - rewrite (lt_not b o E1). cbn [andb]. rewrite (lo_trans LO _ _ _ E1 Hbc), app_assoc. cbn [app]. reflexivity.
  - rewrite andb_false_r. cbn [app]. destruct (nisnan o) eqn:En.
    + assert (X : forall z, nltb z o = false). { intros z. destruct (nltb z o) eqn:E; [|reflexivity]. destruct (nan_lt _ _ E). congruence. }
      rewrite !X. cbn [andb app]. reflexivity.
    + destruct (lo_le LO _ _ Hab) as (_ & Bn & _). pose proof (not_le _ _ En Bn E1) as Lt. rewrite Lt, (le_lt_trans _ _ _ Hab Lt). cbn [andb].
      assert (Z : due (tl_of g offs) a b = []).
      { clear H2 H. induction offs as [|o2 offs IH]; [reflexivity|]. inversion H3; subst. cbn [tl_of flat_map]. rewrite due_app, due_at.
        change (flat_map (fun o0 : num => map (pair o0) (ga_at g o0)) offs) with (tl_of g offs). rewrite IH by assumption.
        destruct H1 as [H1|H1]; [congruence|]. pose proof (lo_lt LO _ _ (lt_trans _ _ _ Lt H1)) as [_ E2]. rewrite E2, andb_false_r. reflexivity. }
      rewrite Z. reflexivity.
Qed.
Lemma due_none : forall tl a, due tl a a = [].
Proof.
  intros tl a. unfold due. induction tl as [|[o u] tl IH]; [reflexivity|]. cbn [filter]. destruct (nleb o a) eqn:E.
  - rewrite (lt_not _ _ E). exact IH.
  - rewrite andb_false_r. exact IH.
Qed.

(* ---------------- applying ---------------- *)

Lemma settings_nc : forall p, settings (unchanneled p) = settings p.
Proof. reflexivity. Qed.
(** Changing settings does not look at the rest of a part. *)
Definition rset (r : res part) : option part := match r with ROk p => Some (settings p) | _ => None end.
Lemma update_settings : forall u p q, settings p = settings q -> rset (update_part u true p) = rset (update_part u true q).
Proof.
  intros u p q H. 
  assert (K : forall f : part -> part, (forall x, settings (f x) = settings (f (settings x))) -> settings (f p) = settings (f q)).
  { intros f Hf. rewrite Hf, H, <- Hf. reflexivity. }
  assert (P : pstock p = pstock q) by (apply (f_equal pstock) in H; exact H).
  assert (T : ptempo p = ptempo q) by (apply (f_equal ptempo) in H; exact H).
  assert (O : poctave p = poctave q) by (apply (f_equal poctave) in H; exact H).
  destruct u; cbn [update_part rset]; try (f_equal; apply K; reflexivity).
  - rewrite T. f_equal. apply K; reflexivity.
  - rewrite O. f_equal. apply K; reflexivity.
  - rewrite O. f_equal. apply K; reflexivity.
  - rewrite P. destruct (_ && _)%bool; [reflexivity|]. cbn [rset]. f_equal. apply (K (fun x => set_pexplicit true (set_pchan n x))); reflexivity.
Qed.
Lemma update_dur : forall u p q, settings p = settings q -> pdur p = pdur q -> forall p' q', update_part u true p = ROk p' -> update_part u true q = ROk q' ->
  pdur p' = pdur q'.
Proof.
  intros u p q H Hd p' q' A B. destruct u; cbn [update_part] in A, B; try (apply rok_inj in A; apply rok_inj in B; subst; exact Hd).
  - apply rok_inj in A; apply rok_inj in B; subst; reflexivity.
  - destruct (_ && negb (iperc (pstock p)))%bool in A; [discriminate|]. destruct (_ && _)%bool in B; [discriminate|].
    apply rok_inj in A; apply rok_inj in B; subst; exact Hd.
Qed.
Lemma applied_cons : forall u us p, applied (u :: us) p = rbind (update_part u true p) (applied us).
Proof.
  intros u us p. unfold applied. cbn [fold_left]. cbn [rbind]. destruct (update_part u true p) as [q|m|m]; cbn [rbind]; [reflexivity| |];
    induction us; cbn; auto.
Qed.
Lemma applied_app : forall us vs p, applied (us ++ vs) p = rbind (applied us p) (applied vs).
Proof.
  induction us as [|u us IH]; intros vs p; [reflexivity|]. cbn [app]. rewrite !applied_cons.
  destruct (update_part u true p); cbn [rbind]; auto.
Qed.
Lemma applied_settings : forall us p q p', settings p = settings q -> applied us p = ROk p' ->
  exists q', applied us q = ROk q' /\ settings q' = settings p' /\ (pdur p = pdur q -> pdur q' = pdur p').
Proof.
  induction us as [|u us IH]; intros p q p' H A.
  - apply rok_inj in A. subst p'. exists q. split; [reflexivity|]. split; [symmetry; exact H|]. auto.
  - rewrite applied_cons in A. pose proof (update_settings u p q H) as S. destruct (update_part u true p) as [p1|m|m] eqn:E1; try discriminate.
    cbn [rset rbind] in *. destruct (update_part u true q) as [q1|m|m] eqn:E2; try discriminate. apply some_inj in S.
    destruct (IH p1 q1 p' S A) as (q' & A1 & A2 & A3). exists q'. rewrite applied_cons, E2. split; [exact A1|]. split; [exact A2|].
    intros D. apply A3. exact (update_dur u p q H D p1 q1 E1 E2).
Qed.
Lemma s_globs_applied : forall us p p', s_globs us p = Some p' ->
  exists q, applied (filter (fun u => negb (overrides (povr p) u)) us) p = ROk q /\ settings p' = settings q /\ pdur p' = pdur q.
Proof.
  induction us as [|u us IH]; intros p p' H; cbn [s_globs filter] in *.
  - apply some_inj in H. subst p'. exists p. repeat split.
  - destruct (overrides (povr p) u) eqn:E; cbn [negb obind] in *.
    + apply IH in H. exact H.
    + unfold s_update in H. destruct (update_part u true p) as [p1|m|m] eqn:E1; try discriminate. cbn [obind] in H.
      apply IH in H. destruct H as (q & A & B & C).
      assert (Ov : povr (unchanneled p1) = povr p).
      { clear -E1. destruct u; cbn in E1; try (apply rok_inj in E1; subst; reflexivity). destruct (_ && _)%bool; [discriminate|]. apply rok_inj in E1; subst; reflexivity. }
      rewrite Ov in A. destruct (applied_settings _ (unchanneled p1) p1 q eq_refl A) as (q' & D1 & D2 & D3).
      exists q'. rewrite applied_cons, E1. split; [exact D1|]. split; [congruence|]. rewrite D3 by reflexivity. exact C.
Qed.

Definition unover (ov : option part_update) (us : list part_update) := filter (fun u => negb (overrides ov u)) us.
Lemma unover_none : forall us, unover None us = us.
Proof. unfold unover. cbn. induction us; cbn; congruence. Qed.

Lemma s_play_step : forall i x y, so_chord x = false -> gsorted (so_glob x) -> nisnan (pcur (so_part x)) = false -> s_play i x = Some y ->
  let p := so_part x in
  exists q, applied (unover (povr p) (due (tl_of (so_glob x) (ga_offs (so_glob x))) (plast p) (pcur p))) p = ROk q /\
    settings (so_part y) = settings q /\ pdur (so_part y) = meant (it_dur i) (pdur q) /\
    plast (so_part y) = pcur p /\ povr (so_part y) = None /\ so_chord y = false /\ so_glob y = so_glob x.
Proof.
  intros i x y Hc Hg Hn H p. unfold s_play, s_note in H. rewrite Hc in H.
  destruct (s_globals x) as [w|] eqn:Ew; [|discriminate]. cbn [obind] in H. destruct (dur_valid _); [|discriminate].
  destruct (s_globals_facts _ _ Ew) as (F1 & F2 & F3 & F4 & F5 & F6 & F7 & F8 & F9).
  assert (Hcw : so_chord w = false) by congruence.
  destruct (s_note_one_facts i w y Hcw H) as (A1 & A2 & _ & _ & A3 & _).
  unfold s_globals in Ew. unfold in_window in Ew. rewrite window_due in Ew; [|exact Hn|apply Hg].
  destruct (s_globs _ _) as [v|] eqn:Ev; [|discriminate]. cbn [obind] in Ew. apply some_inj in Ew.
  apply s_globs_applied in Ev. destruct Ev as (q & B1 & B2 & B3). exists q. split; [exact B1|].
  rewrite A1. cbv zeta. subst w. cbn [on_part so_part] in *. 
  split; [exact B2|]. split; [cbn; rewrite B3; reflexivity|]. split; [exact F1|]. split; [reflexivity|].
  split; congruence.
Qed.

(* ---------------- C17 ---------------- *)

Lemma unnc : forall us p q, applied us (unchanneled p) = ROk q -> exists q', applied us p = ROk q' /\ settings q' = settings q /\ pdur q' = pdur q.
Proof. intros us p q H. destruct (applied_settings us (unchanneled p) p q eq_refl H) as (q' & A & B & C). exists q'. auto. Qed.

Lemma c17_step : forall calls i s' p, let s := session calls in
  between_events s -> In p (current s) -> nisnan (pcur (getp s p)) = false -> no_override s p -> exec [play i] s = (s', Ok) ->
  exists q, applied (due (timeline s) (plast (getp s p)) (pcur (getp s p))) (getp s p) = ROk q /\
    settings (getp s' p) = settings q /\ pdur (getp s' p) = meant (it_dur i) (pdur q) /\
    plast (getp s' p) = pcur (getp s p) /\ no_override s' p.
Proof.
  intros calls i s' p s Hb Hp Hn Ho H.
  destruct (plays_follow [i] _ _ (session_wf calls) H) as [K V]. specialize (V p Hp). cbn [oeach] in V.
  fold s in V. destruct (s_play i (view p s)) as [y|] eqn:E; [|discriminate]. cbn [obind] in V. apply some_inj in V. subst y.
  destruct (s_play_step i (view p s) (view p s') Hb (session_sorted calls) Hn E) as (q & A & B & C & D & F & _).
  cbn [view so_part so_glob] in *. change (povr (unchanneled (getp s p))) with (povr (getp s p)) in A. rewrite Ho, unover_none in A.
  apply unnc in A. destruct A as (q' & A1 & A2 & A3). exists q'. split; [exact A1|]. split; [rewrite A2; exact B|]. split; [rewrite A3; exact C|].
  split; [exact D|exact F].
Qed.

Lemma oeach_app : forall A (F : A -> @solo N -> option solo) l m x, oeach F (l ++ m) x = obind (oeach F l x) (oeach F m).
Proof. intros A F l. induction l as [|a l IH]; intros m x; [reflexivity|]. cbn [app oeach]. destruct (F a x); cbn [obind]; [apply IH|reflexivity]. Qed.
Lemma s_plays_step : forall l x y, so_chord x = false -> gsorted (so_glob x) -> povr (so_part x) = None ->
  nleb (plast (so_part x)) (pcur (so_part x)) = true ->
  (forall k xk x1, (k < List.length l)%nat -> oeach s_play (firstn k l) x = Some xk -> oeach s_play (firstn (S k) l) x = Some x1 ->
     nleb (pcur (so_part xk)) (pcur (so_part x1)) = true) ->
  oeach s_play l x = Some y ->
  nleb (plast (so_part x)) (plast (so_part y)) = true /\
  exists q, applied (due (tl_of (so_glob x) (ga_offs (so_glob x))) (plast (so_part x)) (plast (so_part y))) (so_part x) = ROk q /\
    settings (so_part y) = settings q.
Proof.
  induction l as [|i l IH]; intros x y Hc Hg Ho Hle Hf H; cbn [oeach] in H.
  - apply some_inj in H. subst y. split; [apply le_refl; apply (lo_le LO) in Hle; tauto|]. rewrite due_none. exists (so_part x). split; reflexivity.
  - destruct (s_play i x) as [z|] eqn:E; [|discriminate]. cbn [obind] in H.
    destruct (lo_le LO _ _ Hle) as (_ & Hn & _).
    destruct (s_play_step i x z Hc Hg Hn E) as (q1 & A & B & _ & D & F & G1 & G2). rewrite Ho, unover_none in A.
    assert (Z : nleb (pcur (so_part x)) (pcur (so_part z)) = true).
    { apply (Hf 0%nat x z); [cbn; lia|reflexivity|]. cbn. rewrite E. reflexivity. }
    destruct (IH z y G1) as (Le & q2 & C1 & C2); [rewrite G2; exact Hg|exact F|rewrite D; exact Z| |exact H|].
    { intros k xk x1 Hk A1 A2. apply (Hf (S k) xk x1); [cbn; lia| |]; cbn [firstn oeach]; rewrite E; cbn [obind]; assumption. }
    rewrite G2, D in C1. rewrite D in Le. split; [eapply (lo_trans LO); eassumption|].
    destruct (applied_settings _ (so_part z) q1 q2 B C1) as (q3 & J1 & J2 & _).
    exists q3. split; [|congruence]. rewrite (due_split _ _ _ (pcur (so_part x))); [|exact Hle|exact Le|apply Hg].
    rewrite applied_app, A. exact J1.
Qed.
Lemma exec_prefix : forall us vs s s', exec (us ++ vs) s = (s', Ok) -> exec us s = (fst (exec us s), Ok).
Proof.
  intros us vs s s'. unfold exec, run_all. revert s. induction us as [|u us IH]; intros s H; [reflexivity|].
  cbn [app each] in *. destruct (run 1 u s) as [s1 []]; cbn [seqo] in *; try discriminate. eapply IH. exact H.
Qed.
Lemma c17 : forall calls l s' p, let s := session calls in
  between_events s -> In p (current s) -> no_override s p -> goes_forward s p l -> exec (map play l) s = (s', Ok) ->
  exists q, applied (due (timeline s) (plast (getp s p)) (plast (getp s' p))) (getp s p) = ROk q /\
    settings (getp s' p) = settings q.
Proof.
  intros calls l s' p s Hb Hp Ho [Hf1 Hf2] H.
  destruct (plays_follow l _ _ (session_wf calls) H) as [K V]. specialize (V p Hp). fold s in V.
  assert (Pre : forall k, oeach s_play (firstn k l) (view p s) = Some (view p (after_items s l k))).
  { intros k. assert (E : exec (map play (firstn k l)) s = (after_items s l k, Ok)).
    { unfold after_items. eapply exec_prefix with (vs := map play (skipn k l)). rewrite <- map_app, firstn_skipn. exact H. }
    destruct (plays_follow (firstn k l) _ _ (session_wf calls) E) as [K' V']. exact (V' p Hp). }
  destruct (s_plays_step l (view p s) (view p s') Hb (session_sorted calls) Ho Hf1) as (_ & q & A & B); [|exact V|].
  { intros k xk x1 Hk A B. rewrite Pre in A, B. apply some_inj in A. apply some_inj in B. subst xk x1. exact (Hf2 k Hk). }
  cbn [view so_part so_glob] in *. apply unnc in A. destruct A as (q' & A1 & A2 & _). exists q'. split; [exact A1|]. rewrite A2. exact B.
Qed.
(** Recording. *)
Lemma c17_record_gen : exact_equality -> forall off u g, gsorted g -> nisnan off = false ->
  tl_of (ga_record off u g) (ga_offs (ga_record off u g)) = placed_at off u (tl_of g (ga_offs g)).
Proof.
  intros EX off u g G Hn. unfold ga_record. destruct G as [G1 G2 G3].
  assert (Fl : forall (f : num -> bool) offs, filter (fun '(o, _) => f o) (tl_of g offs) = tl_of g (filter f offs)).
  { intros f offs. induction offs as [|o offs IH]; [reflexivity|]. cbn [tl_of flat_map filter].
    change (flat_map (fun o0 : num => map (pair o0) (ga_at g o0)) offs) with (tl_of g offs). rewrite filter_app, IH. destruct (f o) eqn:E.
    - cbn [tl_of flat_map]. f_equal. induction (ga_at g o); cbn; [reflexivity|]. rewrite E. congruence.
    - replace (filter (fun '(o0, _) => f o0) (map (pair o) (ga_at g o))) with (@nil (num * part_update)); [reflexivity|].
      induction (ga_at g o); cbn; [reflexivity|]. rewrite E. assumption. }
  assert (Nan : forall o, nisnan o = true -> ga_at g o = []).
  { intros o Ho. unfold ga_at. destruct (aget neqb o (ga_itin g)) eqn:E; [|reflexivity]. apply G3 in E. destruct E as (o' & _ & E).
    apply (lo_eq LO) in E. destruct E as [E _]. apply (lo_le LO) in E. destruct E. congruence. }
  unfold placed_at. rewrite (Fl (fun o => nleb o off)), (Fl (fun o => negb (nleb o off))).
  destruct (aget neqb off (ga_itin g)) as [us|] eqn:E.
  - cbn [ga_offs]. set (g' := GA _ _).
    assert (At : forall o, ga_at g' o = if neqb o off then us ++ [u] else ga_at g o).
    { intros o. unfold ga_at, g'. cbn [ga_itin]. rewrite (aget_aset_n _ _ _ _ _ us) by exact E. destruct (neqb o off); reflexivity. }
    assert (Ato : ga_at g off = us) by (unfold ga_at; rewrite E; reflexivity).
    destruct (G3 _ _ E) as (o' & Hin & Ho'). apply EX in Ho'. subst o'. clear G2 G3. revert Hin G1. generalize (ga_offs g) as offs.
    assert (Big : forall offs, Forall (fun o => nltb off o = true) offs -> tl_of g' offs = tl_of g offs /\ filter (fun o => nleb o off) offs = [] /\ filter (fun o => negb (nleb o off)) offs = offs).
    { induction offs as [|o offs IH]; intros F; [repeat split|]. inversion F; subst. destruct (IH H2) as (I1 & I2 & I3).
      cbn [tl_of flat_map filter]. destruct (lo_lt LO _ _ H1) as [L1 L2]. rewrite L2. cbn [negb]. rewrite I2, I3.
      change (flat_map (fun o0 : num => map (pair o0) (ga_at g' o0)) offs) with (tl_of g' offs). rewrite I1, At.
      destruct (neqb o off) eqn:Eo; [apply (lo_eq LO) in Eo; destruct Eo; congruence|]. repeat split. }
    induction offs as [|o offs IH]; intros Hin Hs; [destruct Hin|]. apply StronglySorted_inv in Hs. destruct Hs as [H1 H2]. cbn [tl_of flat_map filter].
    change (flat_map (fun o0 : num => map (pair o0) (ga_at g' o0)) offs) with (tl_of g' offs).
    destruct Hin as [->|Hin].
    + assert (F : Forall (fun o => nltb off o = true) offs). { eapply Forall_impl; [|exact H2]. intros a [A|A]; [congruence|exact A]. }
      destruct (Big offs F) as (I1 & I2 & I3). rewrite (le_refl _ Hn). cbn [negb]. rewrite I1, I2, I3, At, Ato.
      replace (neqb off off) with true by (symmetry; apply (lo_eq LO); split; apply le_refl, Hn).
      cbn [tl_of flat_map]. rewrite Ato, app_nil_r, map_app, <- app_assoc. reflexivity.
    + rewrite Forall_forall in H2. destruct (H2 _ Hin) as [Hl|Hl].
      * rewrite At. destruct (neqb o off) eqn:Eo. { apply EX in Eo. subst o. congruence. }
        rewrite (Nan o Hl). cbn [map app]. destruct (nleb o off) eqn:E1; [apply (lo_le LO) in E1; destruct E1; congruence|]. cbn [negb tl_of flat_map].
        rewrite (Nan o Hl). cbn [map app]. apply IH; assumption.
      * destruct (lo_lt LO _ _ Hl) as [L1 L2]. rewrite L1. cbn [negb tl_of flat_map]. rewrite At.
        destruct (neqb o off) eqn:Eo; [apply (lo_eq LO) in Eo; destruct Eo; congruence|]. rewrite <- app_assoc. f_equal. apply IH; assumption.
  - cbn [ga_offs]. set (g' := GA _ _).
    assert (At : forall o, ga_at g' o = if neqb o off then [u] else ga_at g o).
    { intros o. unfold ga_at, g'. cbn [ga_itin]. rewrite aget_app_n. destruct (neqb o off) eqn:Eo; [|destruct (aget neqb o (ga_itin g)); reflexivity].
      rewrite (aget_eq _ _ o off Eo), E. reflexivity. }
    assert (D : forall y, In y (ga_offs g) -> neqb y off = false).
    { intros y Hy. destruct (neqb y off) eqn:E2; [|reflexivity]. exfalso. apply EX in E2. subst y. exact (G2 off Hy Hn E). }
    clear G2 G3. revert G1 D. generalize (ga_offs g) as offs.
    assert (Big : forall offs, Forall (fun o => nltb off o = true) offs -> tl_of g' offs = tl_of g offs /\ filter (fun o => nleb o off) offs = [] /\ filter (fun o => negb (nleb o off)) offs = offs).
    { induction offs as [|o offs IH]; intros F; [repeat split|]. inversion F; subst. destruct (IH H2) as (I1 & I2 & I3).
      cbn [tl_of flat_map filter]. destruct (lo_lt LO _ _ H1) as [L1 L2]. rewrite L2. cbn [negb]. rewrite I2, I3.
      change (flat_map (fun o0 : num => map (pair o0) (ga_at g' o0)) offs) with (tl_of g' offs). rewrite I1, At.
      destruct (neqb o off) eqn:Eo; [apply (lo_eq LO) in Eo; destruct Eo; congruence|]. repeat split. }
    induction offs as [|o offs IH]; intros Hs D; cbn [insert_offset].
    + cbn [tl_of flat_map filter]. rewrite At. replace (neqb off off) with true by (symmetry; apply (lo_eq LO); split; apply le_refl, Hn). reflexivity.
    + inversion Hs; subst. rewrite Hn. cbn [andb]. rewrite orb_false_r. destruct (nltb off o) eqn:E1.
      * assert (F : Forall (fun o => nltb off o = true) (o :: offs)).
        { constructor; [exact E1|]. eapply Forall_impl; [|exact H2]. intros a [A|A]; [destruct (nan_lt _ _ E1); congruence|eapply lt_trans; eassumption]. }
        destruct (Big _ F) as (I1 & I2 & I3). rewrite I2, I3. cbn [tl_of flat_map] in *. rewrite <- I1, At.
        replace (neqb off off) with true by (symmetry; apply (lo_eq LO); split; apply le_refl, Hn). reflexivity.
      * cbn [tl_of flat_map filter]. change (flat_map (fun o0 : num => map (pair o0) (ga_at g' o0)) (insert_offset off offs)) with (tl_of g' (insert_offset off offs)).
        rewrite IH; [|assumption|intros; apply D; right; assumption]. rewrite At, D by (left; reflexivity).
        destruct (nisnan o) eqn:En.
        { rewrite (Nan o En). destruct (nleb o off) eqn:E2; cbn [negb tl_of flat_map]; rewrite ?(Nan o En); reflexivity. }
        { rewrite (lo_total LO _ _ Hn En E1). cbn [negb tl_of flat_map]. rewrite <- app_assoc. reflexivity. }
Qed.
Lemma c17_record : exact_equality -> forall calls u s' p rest, let s := session calls in
  current s = p :: rest -> nisnan (pcur (getp s p)) = false -> exec [UPrim (GAttr u)] s = (s', Ok) ->
  timeline s' = placed_at (pcur (getp s p)) u (timeline s) /\ heap s' = heap s /\ events s' = events s.
Proof.
  intros EX calls u s' p rest s Hc Hn H. unfold exec, run_all in H. cbn [each run run_upd run_prim] in H. unfold run in H. cbn [run_upd run_prim] in H. unfold run_gattr in H.
  rewrite Hc in H. destruct (same_offset s (pcur (getp s p)) rest); [|discriminate]. cbn [seqo] in H.
  apply (f_equal fst) in H. cbn [fst] in H. subst s'. split; [|split; reflexivity].
  exact (c17_record_gen EX _ _ _ (session_sorted calls) Hn).
Qed.
Lemma c17_kept : forall calls us s' o, let s := session calls in
  Forall (upd_all not_global) us -> stored not_global s -> exec us s = (s', o) -> timeline s' = timeline s.
Proof.
  intros calls us s' o s Hus Hst H. unfold exec in H.
  assert (St : lstar not_global s s').
  { eapply run_all_lstar; [exact Hus|exact H|]. apply stored_store; [intros c; discriminate|exact Hst]. }
  assert (E : globals s' = globals s).
  { eapply (lstar_inv not_global (fun x => globals x = globals s)); [|exact St|reflexivity].
    intros a b Ha Hab. apply step_globals in Hab. destruct Hab as [-> | (off & u & F & _)]; [exact Ha|]. exfalso. apply F. reflexivity. }
  unfold timeline. rewrite E. reflexivity.
Qed.

(* ---------------- C18 ---------------- *)

Lemma local_update : forall u g p v, update_part u g (unchanneled p) = ROk v ->
  exists w, update_part u g p = ROk w /\ settings w = settings v /\ pdur w = pdur v /\
    plast v = plast p /\ pcur v = pcur p.
Proof.
  intros u g p v H. destruct u; cbn [update_part] in *;
    try (apply rok_inj in H; subst v; eexists; split; [reflexivity|]; try destruct g; repeat split; fail).
  cbn [unchanneled set_pchan pstock] in H. destruct (_ && _)%bool; [discriminate|]. apply rok_inj in H; subst v. eexists; split; [reflexivity|]; repeat split.
Qed.
Lemma c18 : forall calls u i s' p, let s := session calls in
  between_events s -> In p (current s) -> nisnan (pcur (getp s p)) = false -> exec [UPrim (Attr u); play i] s = (s', Ok) ->
  exists p1 q, update_part u false (getp s p) = ROk p1 /\
    applied (filter (fun v => negb (same_kind u v)) (due (timeline s) (plast (getp s p)) (pcur (getp s p)))) p1 = ROk q /\
    settings (getp s' p) = settings q /\ pdur (getp s' p) = meant (it_dur i) (pdur q) /\ no_override s' p.
Proof.
  intros calls u i s' p s Hb Hp Hn H.
  assert (E : exists s1, run_attr u s = (s1, Ok) /\ run 1 (play i) s1 = (s', Ok)).
  { unfold exec, run_all in H. cbn [each] in H. change (run 1 (UPrim (Attr u)) s) with (run_attr u s) in H.
    destruct (run_attr u s) as [s1 []]; cbn [seqo] in H; try discriminate. exists s1. split; [reflexivity|].
    destruct (run 1 (play i) s1) as [s2 []]; cbn [seqo] in H; congruence. }
  destruct E as (s1 & E1 & E2).
  destruct (run_attr_solo _ _ _ (session_wf calls) E1) as (K1 & V1).
  assert (W1 : wf s1) by (eapply keep_wf; [exact K1|apply session_wf]).
  destruct (play_follows 1 i s1 s' W1 E2) as [K2 V2].
  specialize (V1 p Hp). assert (Hp1 : In p (current s1)) by (rewrite (k_cur _ _ K1); exact Hp). specialize (V2 p Hp1).
  unfold s_attr, s_update in V1. cbn [view so_part] in V1. fold s in V1.
  destruct (update_part u false (unchanneled (getp s p))) as [v|m|m] eqn:Ev; try discriminate. cbn [obind] in V1. apply some_inj in V1.
  destruct (local_update _ _ _ _ Ev) as (w & A1 & A2 & A3 & A4 & A5).
  rewrite <- V1 in V2. cbn [on_part view so_glob so_mark so_vars so_chord so_notes] in V2.
  eapply s_play_step in V2; [|exact Hb|exact (session_sorted calls)|cbn; rewrite A5; exact Hn]. cbv zeta in V2.
  cbn [so_part so_glob so_chord] in V2. destruct V2 as (q & B1 & B2 & B3 & B4 & B5 & B6).
  change (applied (unover (Some u) (due (timeline s) (plast v) (pcur v))) (set_povr (Some u) (unchanneled v)) = ROk q) in B1.
  rewrite A4, A5 in B1.
  assert (Sv : settings (set_povr (Some u) (unchanneled v)) = settings w) by (rewrite A2; reflexivity).
  destruct (applied_settings _ _ w q Sv B1) as (q' & C1 & C2 & C3). exists w, q'. split; [exact A1|]. split; [exact C1|].
  split; [rewrite C2; exact B2|]. split; [|exact B5]. rewrite C3; [exact B3|]. rewrite A3. reflexivity.
Qed.
End Globals.

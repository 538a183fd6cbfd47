(** Facts about the heap of parts, lists and association maps; induction
    principle for updates. *)
From Coq Require Import ZArith List String Bool Lia Arith.
From Verif Require Import Base Num ModelPitch ModelDuration ModelInstruments ModelTypes.
Import ListNotations.

Lemma upd_nth_length : forall A (l : list A) i x, List.length (upd_nth i x l) = List.length l.
Proof. induction l as [|a l IH]; intros [|i] x; cbn; auto. Qed.

Lemma nth_upd_same : forall A (l : list A) i x d, (i < List.length l)%nat -> nth i (upd_nth i x l) d = x.
Proof. induction l as [|a l IH]; intros [|i] x d H; cbn in *; try lia; auto. apply IH. lia. Qed.

Lemma nth_upd_other : forall A (l : list A) i j x d, i <> j -> nth j (upd_nth i x l) d = nth j l d.
Proof.
  induction l as [|a l IH]; intros [|i] [|j] x d H; cbn; try congruence; auto.
Qed.

Lemma nth_upd : forall A (l : list A) i j x d, (i < List.length l)%nat ->
  nth j (upd_nth i x l) d = if Nat.eqb j i then x else nth j l d.
Proof.
  intros. destruct (Nat.eqb j i) eqn:E.
  - apply Nat.eqb_eq in E; subst. apply nth_upd_same; assumption.
  - apply Nat.eqb_neq in E. apply nth_upd_other. congruence.
Qed.

Lemma upd_nth_out : forall A (l : list A) i x, (List.length l <= i)%nat -> upd_nth i x l = l.
Proof. induction l as [|a l IH]; intros [|i] x H; cbn in *; try lia; auto. f_equal. apply IH. lia. Qed.

Lemma upd_nth_nth : forall A (l : list A) i d, upd_nth i (nth i l d) l = l.
Proof. induction l as [|a l IH]; intros [|i] d; cbn; auto. f_equal; auto. Qed.

Lemma in_upd_nth : forall A (l : list A) i x y, In y (upd_nth i x l) -> y = x \/ In y l.
Proof.
  induction l as [|a l IH]; intros [|i] x y H; cbn in *; try tauto.
  - destruct H; auto.
  - destruct H as [H|H]; auto. destruct (IH _ _ _ H); auto.
Qed.

Lemma upd_nth_map : forall A B (f : A -> B) (l : list A) i x,
  map f (upd_nth i x l) = upd_nth i (f x) (map f l).
Proof. induction l as [|a l IH]; intros [|i] x; cbn; auto. f_equal; auto. Qed.

Lemma upd_nth_self : forall A (l : list A) i x, nth_error l i = Some x -> upd_nth i x l = l.
Proof.
  induction l as [|a l IH]; intros [|i] x H; cbn in *; try discriminate.
  - congruence.
  - f_equal; auto.
Qed.

Lemma nth_error_upd_same : forall A (l : list A) i x, (i < List.length l)%nat ->
  nth_error (upd_nth i x l) i = Some x.
Proof. induction l as [|a l IH]; intros [|i] x H; cbn in *; try lia; auto. apply IH. lia. Qed.
Lemma nth_error_upd_other : forall A (l : list A) i j x, i <> j ->
  nth_error (upd_nth i x l) j = nth_error l j.
Proof. induction l as [|a l IH]; intros [|i] [|j] x H; cbn; try congruence; auto. Qed.

Lemma aget_aset_same : forall K V (eqk : K -> K -> bool) k v (m : list (K * V)),
  eqk k k = true -> aget eqk k (aset eqk k v m) = Some v.
Proof.
  induction m as [|[k' v'] m IH]; intros H; cbn [aset aget].
  - rewrite H. reflexivity.
  - destruct (eqk k' k) eqn:E; cbn [aget]; rewrite E; auto.
Qed.

Lemma aget_aset_other : forall K V (eqk : K -> K -> bool),
  (forall a b, eqk a b = true <-> a = b) ->
  forall k k' v (m : list (K * V)), k <> k' -> aget eqk k' (aset eqk k v m) = aget eqk k' m.
Proof.
  intros K V eqk Heq k k' v m Hne. induction m as [|[k0 v0] m IH]; cbn [aset aget].
  - destruct (eqk k k') eqn:E; [apply Heq in E; contradiction|reflexivity].
  - destruct (eqk k0 k) eqn:E; cbn [aget].
    + apply Heq in E; subst. destruct (eqk k k') eqn:E2; [apply Heq in E2; contradiction|reflexivity].
    + destruct (eqk k0 k') eqn:E2; auto.
Qed.

Lemma aget_in : forall K V (eqk : K -> K -> bool), (forall a b, eqk a b = true <-> a = b) ->
  forall k v (m : list (K * V)), aget eqk k m = Some v -> In (k, v) m.
Proof.
  intros K V eqk Heq k v m. induction m as [|[k0 v0] m IH]; cbn [aget]; intros H; [discriminate|].
  destruct (eqk k0 k) eqn:E.
  - apply Heq in E. inversion H; subst. left; reflexivity.
  - right; auto.
Qed.

Lemma in_aset : forall K V (eqk : K -> K -> bool) (k : K) (v : V) m k' v',
  In (k', v') (aset eqk k v m) -> v' = v \/ In (k', v') m.
Proof.
  intros K V eqk k v m k' v'. induction m as [|[k0 v0] m IH]; cbn [aset]; intros H.
  - destruct H as [H|[]]. inversion H; auto.
  - destruct (eqk k0 k); destruct H as [H|H].
    + inversion H; auto.
    + right; right; assumption.
    + inversion H; subst. right; left; reflexivity.
    + destruct (IH H); auto. right; right; assumption.
Qed.

Lemma existsb_In : forall x l, existsb (Nat.eqb x) l = true <-> In x l.
Proof.
  intros. rewrite existsb_exists. split.
  - intros [y [H1 H2]]. apply Nat.eqb_eq in H2. subst. exact H1.
  - intros H. exists x. split; [exact H|apply Nat.eqb_refl].
Qed.
Lemma existsb_nIn : forall x l, existsb (Nat.eqb x) l = false <-> ~ In x l.
Proof.
  intros. rewrite <- existsb_In. destruct (existsb (Nat.eqb x) l); split; congruence.
Qed.

Section Heap.
Context {N : Num}.

Lemma heap_setp : forall p v s, List.length (heap (setp p v s)) = List.length (heap s).
Proof. intros. apply upd_nth_length. Qed.
Lemma heap_modp : forall p f s, List.length (heap (modp p f s)) = List.length (heap s).
Proof. intros. apply upd_nth_length. Qed.

Lemma getp_setp_same : forall p v s, (p < List.length (heap s))%nat -> getp (setp p v s) p = v.
Proof. intros. apply nth_upd_same; assumption. Qed.
Lemma getp_setp_other : forall p q v s, p <> q -> getp (setp p v s) q = getp s q.
Proof. intros. apply nth_upd_other; assumption. Qed.
Lemma getp_setp : forall p q v s, (p < List.length (heap s))%nat ->
  getp (setp p v s) q = if Nat.eqb q p then v else getp s q.
Proof. intros. apply nth_upd; assumption. Qed.
Lemma getp_modp_same : forall p f s, (p < List.length (heap s))%nat ->
  getp (modp p f s) p = f (getp s p).
Proof. intros. apply getp_setp_same; assumption. Qed.
Lemma getp_modp_other : forall p q f s, p <> q -> getp (modp p f s) q = getp s q.
Proof. intros. apply getp_setp_other; assumption. Qed.
Lemma getp_modp : forall p q f s, (p < List.length (heap s))%nat ->
  getp (modp p f s) q = if Nat.eqb q p then f (getp s q) else getp s q.
Proof.
  intros. unfold modp. rewrite getp_setp by assumption.
  destruct (Nat.eqb q p) eqn:E; [apply Nat.eqb_eq in E; subst|]; reflexivity.
Qed.

(** Induction over updates with hypotheses for the nested lists. *)
Fixpoint update_ind' (P : update -> Prop)
  (Hprim : forall p, P (UPrim p)) (Hnil : P UNil) (Hlisp : forall els, P (ULisp els))
  (Hbar : P UBarline) (Hchord : forall es, Forall P es -> P (UChord es))
  (Hcram : forall es d, Forall P es -> P (UCram es d))
  (Hrep : forall e n, P e -> P (URepeat e n)) (Hon : forall rs e, P e -> P (UOnReps rs e))
  (Hseq : forall es, Forall P es -> P (USeq es)) (Hmk : forall n, P (UMarker n))
  (Hat : forall n, P (UAtMarker n)) (Hdef : forall n es, Forall P es -> P (UVarDef n es))
  (Href : forall n, P (UVarRef n)) (Hv : forall n, P (UVoice n)) (Hve : P UVoiceEnd)
  (Hpart : forall ns a, P (UPart ns a)) (u : update) {struct u} : P u :=
  let ind := update_ind' P Hprim Hnil Hlisp Hbar Hchord Hcram Hrep Hon Hseq Hmk Hat Hdef Href
                         Hv Hve Hpart in
  let all := (fix go l : Forall P l :=
                match l with
                | [] => Forall_nil _
                | x :: t => Forall_cons x (ind x) (go t)
                end) in
  match u with
  | UPrim p => Hprim p | UNil => Hnil | ULisp els => Hlisp els | UBarline => Hbar
  | UChord es => Hchord es (all es) | UCram es d => Hcram es d (all es)
  | URepeat e n => Hrep e n (ind e) | UOnReps rs e => Hon rs e (ind e)
  | USeq es => Hseq es (all es) | UMarker n => Hmk n | UAtMarker n => Hat n
  | UVarDef n es => Hdef n es (all es) | UVarRef n => Href n | UVoice n => Hv n
  | UVoiceEnd => Hve | UPart ns a => Hpart ns a
  end.
End Heap.

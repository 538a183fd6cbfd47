(** Part declarations (C22). *)
From Coq Require Import ZArith List String Ascii Bool Lia Arith.
From Verif Require Import Base Num ModelPitch ModelDuration ModelInstruments ModelTypes ModelLisp
  ModelScore SpecScore SpecVars SpecParts SpecSolo SpecDeclare ProofHeap ProofStep ProofInv ProofEvents ProofVoices ProofTracks ProofTiming ProofGroups.
Import ListNotations.
Local Open Scope string_scope.
Local Open Scope list_scope.

Section Declare.
Context {N : Num}.
Local Opaque stock_instrument.
Notation len s := (List.length (heap s)).

(** The declaration tables of a score, in terms of instances. *)
Definition tabs := (list (pid * string) * list (string * list pid))%type.
Definition insts (s : score) : list (pid * string) := map (fun p => (org s p, kind s p)) (parts s).
Definition atab (s : score) : list (string * list pid) := map (fun '(a, ps) => (a, map (org s) ps)) (aliases s).
Definition tab (s : score) : tabs := (insts s, atab s).

Definition namedo (D : tabs) (o : pid) : bool := existsb (fun '(_, os) => existsb (Nat.eqb o) os) (snd D).
Definition nam (D : tabs) (a : string) : list pid := match aget String.eqb a (snd D) with Some l => l | None => [] end.
Definition unn (D : tabs) (n : string) : list pid :=
  map fst (filter (fun '(o, k) => negb (namedo D o) && String.eqb k (stock_of n)) (fst D)).
Definition known_new (D : tabs) (names : list string) (x : pid * string) : Prop :=
  ~ In (fst x) (map fst (fst D)) /\
  exists n i, In n names /\ nam D n = [] /\ unn D n = [] /\ stock_instrument n = Some i /\ snd x = iname i.

Inductive decl (D : tabs) : list string -> string -> tabs -> list pid -> Prop :=
| D_named n : nam D n <> [] -> decl D [n] "" D (nam D n)
| D_unnamed n : nam D n = [] -> unn D n <> [] -> decl D [n] "" D (unn D n)
| D_new n i o : nam D n = [] -> unn D n = [] -> stock_instrument n = Some i -> ~ In o (map fst (fst D)) ->
    (dot_access n = true \/ forall a o, In (a, [o]) (snd D) -> ~ In (o, stock_of n) (fst D)) ->
    decl D [n] "" (fst D ++ [(o, iname i)], snd D) [o]
| D_alias n a i o : a <> "" -> nam D n = [] -> nam D a = [] -> unn D n = [] -> stock_instrument n = Some i ->
    ~ In o (map fst (fst D)) ->
    decl D [n] a (fst D ++ [(o, iname i)], aset String.eqb (a ++ "." ++ n)%string [o] (aset String.eqb a [o] (snd D))) [o]
| D_group names news cur : List.length names <> 1%nat -> Forall (known_new D names) news ->
    decl D names "" (fst D ++ news, snd D) cur
| D_other names a D' cur : List.length names <> 1%nat -> a <> "" ->
    (forall o k, In (o, k) (fst D') -> In (o, k) (fst D) \/ exists n i, stock_instrument n = Some i /\ k = iname i) ->
    decl D names a D' cur.

(* ---------------- the tables and the score ---------------- *)

Lemma nam_tab : forall s a, nam (tab s) a = map (org s) (named_parts s a).
Proof.
  intros s a. unfold nam, tab, atab, named_parts. cbn [snd].
  induction (aliases s) as [|[b ps] l IH]; [reflexivity|]. cbn [map aget]. destruct (String.eqb b a); [reflexivity|exact IH].
Qed.

Lemma named_tab : forall s p, vinv s -> In p (parts s) -> namedo (tab s) (org s p) = is_named s p.
Proof.
  intros s p V Hp. unfold namedo, tab, atab, is_named. cbn [snd].
  pose proof (vi_alias s V) as Ha. induction (aliases s) as [|[b ps] l IH]; [reflexivity|]. cbn [map existsb].
  rewrite IH by (intros; eapply Ha; right; eassumption). f_equal.
  destruct (Ha b ps (or_introl eq_refl)) as [_ Hi].
  assert (E : forall x, In x ps -> Nat.eqb (org s p) (org s x) = Nat.eqb p x).
  { intros x Hx. destruct (Nat.eqb p x) eqn:E; [apply Nat.eqb_eq in E; subst; apply Nat.eqb_refl|].
    apply Nat.eqb_neq in E. apply Nat.eqb_neq. intros E2. apply E. eapply NoDup_map_inj; [apply (vi_parts s V)|exact Hp|apply Hi; exact Hx|exact E2]. }
  clear -E. induction ps as [|x ps IH]; [reflexivity|]. cbn [map existsb]. rewrite E by (left; reflexivity).
  rewrite IH; [reflexivity|]. intros; apply E; right; assumption.
Qed.

Lemma unn_tab : forall s n, vinv s -> unn (tab s) n = map (org s) (unnamed_parts s n).
Proof.
  intros s n V. unfold unn, unnamed_parts. change (fst (tab s)) with (map (fun p => (org s p, kind s p)) (parts s)).
  assert (E : forall p, In p (parts s) -> namedo (tab s) (org s p) = is_named s p) by (intros; apply named_tab; assumption).
  induction (parts s) as [|p l IH]; [reflexivity|]. cbn [map filter]. rewrite E by (left; reflexivity).
  specialize (IH (fun q H => E q (or_intror H))).
  change (iname (pstock (getp s p))) with (kind s p). destruct (negb (is_named s p) && _); cbn [map fst]; [f_equal|]; exact IH.
Qed.

(** Ending a voice group leaves the tables alone. *)
Lemma redirect_kind : forall s o v l, inv s -> Forall (fun r => (r < len s)%nat) l -> (v < len s)%nat -> org s v = o ->
  forall r, In r l -> let r' := if Nat.eqb (porigin (getp s r)) o then v else r in (org s r', kind s r') = (org s r, kind s r).
Proof.
  intros s o v l I Hl Hv Ho r Hr. cbv zeta. destruct (Nat.eqb _ _) eqn:E; [|reflexivity]. apply Nat.eqb_eq in E.
  rewrite Forall_forall in Hl. destruct (getp_good s r I (Hl r Hr)) as (_ & _ & A & _). destruct (getp_good s v I Hv) as (_ & _ & B & _).
  unfold org, kind in *. f_equal; [congruence|]. rewrite <- A, <- B, E, Ho. reflexivity.
Qed.

Lemma vend_one_tab : forall i p s, inv s -> vinv s -> nth_error (current s) i = Some p -> tab (voice_end_one i p s) = tab s.
Proof.
  intros i p s I V Hi. assert (Hp : In p (current s)) by (eapply nth_error_In; exact Hi).
  unfold voice_end_one. destruct (getv s (pvoices (getp s p))) as [|x vs] eqn:E; [reflexivity|].
  destruct (vi_link s V p Hp) as [q [Hq Hl]].
  pose proof (link_vid s q p V Hq Hl) as Hvid. pose proof (link_org s q p V Hq Hl) as Hpo.
  assert (Hcq : cellof s q = x :: vs) by (rewrite <- E; unfold cellof; unfold vid in Hvid; congruence).
  destruct (vi_state s V q Hq) as [[A _]|[[t (A1 & A2 & A3 & A4 & A5)] _]]; [congruence|].
  set (lv := last_to_finish s (x :: vs) p).
  destruct (last_to_finish_in s (x :: vs) p) as [n Hn]; [discriminate|]. fold lv in Hn.
  rewrite <- Hcq in Hn. destruct (A5 _ _ Hn) as [Hlv Hlvid].
  assert (Hlo : org s lv = org s p) by (unfold vid, org in *; congruence).
  set (cell := List.length (vheap s)).
  set (s2 := modp lv (fun q => set_ptmpl None (set_pvoices cell q)) (set_vheap (vheap s ++ [[]]) s)).
  assert (Gor : forall r, org s2 r = org s r /\ kind s2 r = kind s r).
  { intros r. unfold org, kind. destruct (Nat.eq_dec r lv) as [->|Hne].
    - unfold s2. rewrite getp_modp_same by exact Hlv. split; reflexivity.
    - unfold s2. rewrite getp_modp_other by congruence. split; reflexivity. }
  match goal with |- tab ?x = _ => set (s5 := x) end.
  assert (Hr : forall r, porigin (getp s2 r) = porigin (getp s r)) by (intros; apply Gor).
  assert (R : forall l, Forall (fun r => (r < len s)%nat) l ->
     map (fun r => (org s r, kind s r)) (map (fun q0 => if Nat.eqb (porigin (getp s q0)) (org s p) then lv else q0) l) =
     map (fun r => (org s r, kind s r)) l).
  { intros l Hl0. rewrite map_map. apply map_ext_in. intros r Hin. apply (redirect_kind s (org s p) lv l I Hl0 Hlv Hlo r Hin). }
  assert (R2 : forall l, redirect s2 (porigin (getp s2 p)) lv l = map (fun q0 => if Nat.eqb (porigin (getp s q0)) (org s p) then lv else q0) l).
  { intros l. rewrite Hr. unfold redirect. apply map_ext. intros q0. rewrite Hr. reflexivity. }
  unfold tab. f_equal.
  - unfold insts. change (parts s5) with (redirect s2 (porigin (getp s2 p)) lv (parts s)). rewrite R2.
    rewrite (map_ext (fun p => (org s5 p, kind s5 p)) (fun p => (org s p, kind s p))).
    + apply R. apply (inv_parts s I).
    + intros r. destruct (Gor r) as [B1 B2]. change (org s5 r) with (org s2 r). change (kind s5 r) with (kind s2 r). congruence.
  - unfold atab. change (aliases s5) with (map (fun '(a, ps) => (a, redirect s2 (porigin (getp s2 p)) lv ps)) (aliases s)).
    rewrite map_map. apply map_ext_in. intros [a ps] Hin. f_equal. rewrite R2.
    rewrite (map_ext (org s5) (org s)) by (intros r; apply Gor).
    pose proof (R ps (inv_alias s I a ps Hin)) as K. apply (f_equal (map fst)) in K. rewrite !map_map in K. rewrite map_map. exact K.
Qed.

Lemma vend_tab : forall s, inv s -> vinv s -> tab (run_voice_end s) = tab s.
Proof.
  intros s I V. unfold run_voice_end. assert (G : forall cnt i s, inv s -> vinv s -> tab (voice_end_loop i cnt s) = tab s).
  { clear. induction cnt as [|k IH]; intros i s I V; cbn [voice_end_loop]; [reflexivity|].
    destruct (nth_error (current s) i) as [p|] eqn:E; [|reflexivity].
    assert (Hp : In p (current s)) by (eapply nth_error_In; exact E).
    rewrite IH; [apply vend_one_tab; assumption|apply vend_one_inv; assumption|]. apply (vend_one_vinv i p s I V E). }
  apply G; assumption.
Qed.

(* ---------------- one declaration ---------------- *)

Lemma nonempty_false : forall {A} (l : list A), nonempty l = false -> l = [].
Proof. intros A [|x l] H; [reflexivity|discriminate]. Qed.
Lemma nonempty_true : forall {A} (l : list A), nonempty l = true -> l <> [].
Proof. intros A [|x l] H; [discriminate|discriminate]. Qed.

Definition created (s s1 : score) (n : string) (p : pid) : Prop :=
  (len s <= p < len s1)%nat /\
  exists i c, stock_instrument n = Some i /\ getp s1 p = fresh_part n i p c.

Lemma new_part_created : forall n s p s1, new_part n s = ROk (p, s1) -> grows s s1 /\ created s s1 n p.
Proof.
  intros n s p s1 H. destruct (new_part_grows _ _ _ _ H) as (A & B & C & i & D & E).
  split; [exact A|]. split; [lia|]. exists i, (List.length (vheap s)). split; assumption.
Qed.

Lemma determine_single : forall n alias s ps s1, determine_parts [n] alias s = ROk (ps, s1) ->
  (alias = "" /\ named_parts s n <> [] /\ ps = named_parts s n /\ s1 = s) \/
  (alias = "" /\ named_parts s n = [] /\ unnamed_parts s n <> [] /\ ps = unnamed_parts s n /\ s1 = s) \/
  (alias = "" /\ named_parts s n = [] /\ unnamed_parts s n = [] /\
     (dot_access n = true \/ aliased_stock s n = []) /\
     exists p, ps = [p] /\ grows s s1 /\ created s s1 n p) \/
  (alias <> "" /\ named_parts s n = [] /\ named_parts s alias = [] /\ unnamed_parts s n = [] /\
     exists p, ps = [p] /\ grows s s1 /\ created s s1 n p).
Proof.
  intros n alias s ps s1 H. unfold determine_parts in H.
  assert (Hn : rmap (fun '(p, s1) => ([p], s1)) (new_part n s) = ROk (ps, s1) ->
               exists p, ps = [p] /\ grows s s1 /\ created s s1 n p).
  { intros Hn. destruct (new_part n s) as [[p s2]|m|m] eqn:E; [|discriminate Hn|discriminate Hn].
    cbn [rmap rbind] in Hn. inversion Hn; subst. exists p. split; [reflexivity|]. apply new_part_created. exact E. }
  unfold is_empty_string in H. destruct (String.eqb alias "") eqn:Ea; cbn [negb andb orb] in H.
  - apply String.eqb_eq in Ea.
    destruct (nonempty (aliased_stock s n) && negb (dot_access n)) eqn:Es; [discriminate|].
    destruct (nonempty (named_parts s n)) eqn:E1.
    + left. inversion H; subst. apply nonempty_true in E1. auto.
    + apply nonempty_false in E1. destruct (nonempty (unnamed_parts s n)) eqn:E2.
      * right; left. inversion H; subst. apply nonempty_true in E2. auto.
      * right; right; left. apply nonempty_false in E2. split; [exact Ea|]. split; [exact E1|]. split; [exact E2|].
        split; [|apply Hn; exact H]. destruct (dot_access n); [left; reflexivity|right].
        rewrite andb_true_r in Es. apply nonempty_false. exact Es.
  - apply String.eqb_neq in Ea. right; right; right. split; [exact Ea|].
    destruct (nonempty (named_parts s n)) eqn:E1; [discriminate|].
    destruct (nonempty (named_parts s alias)) eqn:E3; [discriminate|].
    destruct (nonempty (unnamed_parts s n)) eqn:E2; [discriminate|]. cbn [orb] in H.
    apply nonempty_false in E1. apply nonempty_false in E2. apply nonempty_false in E3.
    split; [exact E1|]. split; [exact E3|]. split; [exact E2|]. apply Hn. exact H.
Qed.

Definition wanted (s s1 : score) (names : list string) (p : pid) : Prop :=
  In p (parts s) \/ exists n, In n names /\ named_parts s n = [] /\ unnamed_parts s n = [] /\ created s s1 n p.

Lemma group_wanted : forall names s0 s np sp s1, inv s0 -> vinv s0 -> grows s0 s ->
  group_parts names s = ROk (np, sp, s1) ->
  forall p, In p (np ++ sp) -> wanted s0 s1 names p.
Proof.
  induction names as [|n t IH]; intros s0 s np sp s1 I V G0 H p Hp; cbn [group_parts] in H.
  - inversion H; subst. destruct Hp.
  - assert (W : forall p, wanted s0 s1 t p -> wanted s0 s1 (n :: t) p).
    { intros q [Hq|(m & A & B)]; [left; exact Hq|right; exists m; split; [right; exact A|exact B]]. }
    rewrite (named_grows s0 s n G0), (unnamed_grows s0 s n I G0) in H.
    destruct (nonempty (named_parts s0 n)) eqn:E1; [|destruct (nonempty (unnamed_parts s0 n)) eqn:E2].
    + destruct (group_parts t s) as [[[a b] c]|m|m] eqn:E; [|discriminate H|discriminate H]. cbn [rmap rbind] in H. inversion H; subst.
      rewrite <- app_assoc in Hp. apply in_app_or in Hp. destruct Hp as [Hp|Hp].
      * left. apply (named_parts_in s0 n V). exact Hp.
      * apply W. eapply IH; [exact I|exact V|exact G0|exact E|exact Hp].
    + destruct (group_parts t s) as [[[a b] c]|m|m] eqn:E; [|discriminate H|discriminate H]. cbn [rmap rbind] in H. inversion H; subst.
      apply in_app_or in Hp. rewrite in_app_iff in Hp. destruct Hp as [Hp|[Hp|Hp]].
      * apply W. eapply IH; [exact I|exact V|exact G0|exact E|apply in_or_app; left; exact Hp].
      * left. apply (unnamed_parts_in s0 n V). exact Hp.
      * apply W. eapply IH; [exact I|exact V|exact G0|exact E|apply in_or_app; right; exact Hp].
    + destruct (new_part n s) as [[q s2]|m|m] eqn:En; [|discriminate H|discriminate H]. cbn [rbind] in H.
      destruct (new_part_created _ _ _ _ En) as [G1 [C1 (i & c1 & C2 & C3)]].
      pose proof (grows_trans _ _ _ G0 G1) as G2.
      destruct (group_parts t s2) as [[[a b] c]|m|m] eqn:E; [|discriminate H|discriminate H]. cbn [rmap rbind] in H. inversion H; subst.
      destruct (group_parts_grows t s0 s2 np b s1 I V G2 E) as (_ & G3 & _).
      apply in_app_or in Hp. destruct Hp as [Hp|[<-|Hp]].
      * apply W. eapply IH; [exact I|exact V|exact G2|exact E|apply in_or_app; left; exact Hp].
      * right. exists n. split; [left; reflexivity|]. apply nonempty_false in E1. apply nonempty_false in E2.
        split; [exact E1|]. split; [exact E2|]. pose proof (grows_len _ _ G0). pose proof (grows_len _ _ G3).
        split; [lia|]. exists i, c1. split; [exact C2|]. rewrite (grows_old _ _ _ G3) by lia. exact C3.
      * apply W. eapply IH; [exact I|exact V|exact G2|exact E|apply in_or_app; right; exact Hp].
Qed.

Lemma dedup_sub : forall l seen x, In x (dedup l seen) -> In x l.
Proof.
  induction l as [|y l IH]; intros seen x Hx; [destruct Hx|]. cbn [dedup] in Hx.
  destruct (existsb (Nat.eqb y) seen); [right; eapply IH; exact Hx|].
  destruct Hx as [<-|Hx]; [left; reflexivity|right; eapply IH; exact Hx].
Qed.

Lemma determine_group : forall names s ps s1, inv s -> vinv s -> List.length names <> 1%nat ->
  determine_parts names "" s = ROk (ps, s1) -> forall p, In p ps -> wanted s s1 names p.
Proof.
  intros names s ps s1 I V Hl H p Hp.
  assert (E : determine_parts names "" s =
     if has_dup names then RErr "name included multiple times in group"
      else
        rbind (group_parts names s) (fun '(np, sp, s1) =>
        if nonempty np && nonempty sp then RErr "invalid group"
        else ROk (dedup (np ++ sp) [], s1))).
  { destruct names as [|a [|b t]]; [reflexivity|exfalso; apply Hl; reflexivity|reflexivity]. }
  rewrite E in H. clear E. destruct (has_dup names); [discriminate|].
  destruct (group_parts names s) as [[[np sp] s2]|m|m] eqn:Eg; [|discriminate H|discriminate H].
  cbn [rbind] in H. destruct (nonempty np && nonempty sp); [discriminate|].
  inversion H; subst. eapply group_wanted; [exact I|exact V|apply grows_refl|exact Eg|]. eapply dedup_sub. exact Hp.
Qed.

Lemma flat_map_nil_all : forall {A B} (f : A -> list B) l, (forall x, In x l -> f x = []) -> flat_map f l = [].
Proof. intros A B f l H. induction l as [|x l IH]; [reflexivity|]. cbn [flat_map]. rewrite H by (left; reflexivity). apply IH. intros; apply H; right; assumption. Qed.

Lemma filter_none : forall {A} (f : A -> bool) l, (forall x, In x l -> f x = false) -> filter f l = [].
Proof. intros A f l H. induction l as [|x l IH]; [reflexivity|]. cbn [filter]. rewrite H by (left; reflexivity). apply IH. intros; apply H; right; assumption. Qed.

Lemma aliased_none : forall s n, vinv s -> aliased_stock s n = [] ->
  forall a o, In (a, [o]) (atab s) -> ~ In (o, stock_of n) (insts s).
Proof.
  intros s n V H a o Ha Ho. unfold atab in Ha. apply in_map_iff in Ha. destruct Ha as [[b ps] [E Hb]].
  assert (E1 : b = a /\ map (org s) ps = [o]) by (split; congruence). clear E. destruct E1 as [-> E].
  destruct ps as [|q [|q2 ps]]; try discriminate. cbn in E. assert (Eq : org s q = o) by congruence. clear E.
  unfold insts in Ho. apply in_map_iff in Ho. destruct Ho as [r [E2 Hr]].
  assert (E3 : org s r = o /\ kind s r = stock_of n) by (split; congruence). destruct E3 as [E3 E4]. clear E2.
  destruct (vi_alias s V a [q] Hb) as [_ Hi].
  assert (r = q). { eapply NoDup_map_inj; [apply (vi_parts s V)|exact Hr|apply Hi; left; reflexivity|congruence]. }
  subst r. assert (K : In q (aliased_stock s n)); [|rewrite H in K; destruct K].
  unfold aliased_stock. apply in_flat_map. exists (a, [q]). split; [exact Hb|].
  unfold kind in E4. rewrite E4, String.eqb_refl. left; reflexivity.
Qed.

Lemma aset_map : forall (f : list pid -> list pid) a ps (l : list (string * list pid)),
  map (fun '(b, qs) => (b, f qs)) (aset String.eqb a ps l) = aset String.eqb a (f ps) (map (fun '(b, qs) => (b, f qs)) l).
Proof.
  intros f a ps l. induction l as [|[b qs] l IH]; [reflexivity|]. cbn [aset map].
  destruct (String.eqb b a); cbn [map]; [reflexivity|]. rewrite IH. reflexivity.
Qed.

Lemma run_part_decl : forall names alias s s', inv s -> vinv s -> run_part names alias s = (s', Ok) ->
  decl (tab s) names alias (tab s') (map (org s') (current s')).
Proof.
  intros names alias s s' I V H.
  destruct (run_part_shape _ _ _ _ I V H) as (ps & s1 & new & al & E & Hs' & ND & Hnew & _ & Hal). clear H.
  destruct (vend_inv s I) as [I0 X0]. destruct (vend_vinv s I V) as (V0 & M0 & _ & Hcl & _).
  rewrite <- (vend_tab s I V).
  set (s0 := run_voice_end s) in *.
  destruct (determine_parts_grows _ _ _ _ _ I0 V0 E) as (G & NDp & Hon).
  destruct (grows_tables _ _ G) as (T1 & T2 & T3 & T4 & _).
  set (s2 := match parts s0, ps with [], p0 :: _ => modp p0 (set_pmaster true) s1 | _, _ => s1 end) in *.
  assert (Hs2 : forall r, org s2 r = org s1 r /\ kind s2 r = kind s1 r /\ pname (getp s2 r) = pname (getp s1 r)).
  { intros r. unfold s2, org, kind. destruct (parts s0); [destruct ps as [|p0 ps0]|]; auto.
    destruct (Nat.lt_ge_cases p0 (List.length (heap s1))) as [Hp|Hp].
    - rewrite getp_modp by exact Hp. destruct (Nat.eqb r p0) eqn:Er; auto.
    - unfold modp, getp, setp. cbn. rewrite upd_nth_out by exact Hp. auto. }
  assert (G' : forall r, org s' r = org s1 r /\ kind s' r = kind s1 r /\ pname (getp s' r) = pname (getp s1 r)).
  { intros r. destruct (Hs2 r) as (A & B & C). unfold org, kind in *. rewrite Hs'. auto. }
  assert (A2 : aliases s2 = aliases s0) by (unfold s2; destruct (parts s0); [destruct ps|]; exact T3).
  assert (Old : forall r, In r (parts s0) -> org s' r = org s0 r /\ kind s' r = kind s0 r).
  { intros r Hr. destruct (G' r) as (A & B & _). rewrite A, B. unfold org, kind.
    rewrite (grows_old s0 s1 r G) by (eapply in_parts; eassumption). auto. }
  assert (Fresh : forall n r, created s0 s1 n r -> org s' r = r /\ pname (getp s' r) = n /\
             exists i, stock_instrument n = Some i /\ kind s' r = iname i).
  { intros n r [Hr (i & c & A & B)]. destruct (G' r) as (C1 & C2 & C3). rewrite C1, C2, C3. unfold org, kind. rewrite B. eauto. }
  assert (Fo : forall r, (len s0 <= r)%nat -> ~ In r (map fst (fst (tab s0)))).
  { intros r Hr Hin. cbn [fst tab] in Hin. unfold insts in Hin. rewrite map_map in Hin. apply in_map_iff in Hin.
    destruct Hin as [q [Hq Hin]]. cbn in Hq. pose proof (in_parts s0 q I0 Hin) as Hl.
    destruct (getp_good s0 q I0 Hl) as (D & _). unfold org in Hq. lia. }
  assert (P' : insts s' = insts s0 ++ map (fun p => (org s' p, kind s' p)) new).
  { unfold insts. rewrite Hs'. cbn [parts set_current set_aliases set_parts].
    change (parts (set_current ps (set_aliases al (set_parts (parts s0 ++ new) s2)))) with (parts s0 ++ new).
    rewrite <- Hs'. rewrite map_app. f_equal. apply map_ext_in. intros r Hr. destruct (Old r Hr) as [A B]. rewrite A, B. reflexivity. }
  assert (C' : current s' = ps) by (rewrite Hs'; reflexivity).
  assert (Al' : aliases s' = al) by (rewrite Hs'; reflexivity).
  assert (Atold : map (fun '(a, qs) => (a, map (org s') qs)) (aliases s0) = atab s0).
  { unfold atab. apply map_ext_in. intros [a qs] Hin. f_equal. apply map_ext_in. intros r Hr. apply Old.
    destruct (vi_alias s0 V0 a qs Hin) as [_ Hi]. apply Hi. exact Hr. }
  assert (Noal : alias = "" -> atab s' = atab s0).
  { intros ->. cbn [is_empty_string] in Hal. change (is_empty_string "") with true in Hal. cbn iota in Hal.
    apply (f_equal aliases) in Hal. cbn in Hal. rewrite A2 in Hal. unfold atab. rewrite Al', Hal. exact Atold. }
  assert (Nonew : incl ps (parts s0) -> new = []).
  { intros Hi. destruct new as [|x l]; [reflexivity|]. exfalso. destruct (proj1 (Hnew x) (or_introl eq_refl)) as [A B]. apply B, Hi, A. }
  rewrite C'.
  assert (Stk : forall o k, In (o, k) (fst (tab s')) -> In (o, k) (fst (tab s0)) \/ exists n i, stock_instrument n = Some i /\ k = iname i).
  { intros o k Hin. cbn [tab fst] in *. rewrite P' in Hin. apply in_app_or in Hin. destruct Hin as [Hin|Hin]; [left; exact Hin|right].
    apply in_map_iff in Hin. destruct Hin as [r [Er Hr]]. apply Hnew in Hr. destruct Hr as [Hr Hn].
    destruct (Hon r Hr) as [Ho|Ho]; [contradiction|]. destruct (grows_fresh s0 s1 r G Ho) as (nm & ins & A & B).
    exists nm, ins. split; [exact A|]. destruct (G' r) as (_ & K & _). assert (k = kind s' r) by congruence. subst k. rewrite K. unfold kind. rewrite B. reflexivity. }
  destruct names as [|n [|m t]] eqn:En.
  - destruct (string_dec alias "") as [Ea|Ea]; [|apply D_other; [discriminate|exact Ea|exact Stk]]. rewrite Ea in *.
    replace (tab s') with (fst (tab s0) ++ map (fun p => (org s' p, kind s' p)) new, snd (tab s0))
      by (unfold tab; cbn [fst snd]; rewrite P', (Noal eq_refl); reflexivity).
    apply D_group; [discriminate|]. apply Forall_map. apply Forall_forall. intros p Hp. exfalso.
    apply Hnew in Hp. destruct Hp as [Hp Hq]. destruct (determine_group [] s0 ps s1 I0 V0 ltac:(discriminate) E p Hp) as [W|(n & [] & _)]. contradiction.
  - destruct (determine_single _ _ _ _ _ E) as [(Ea & B1 & B2 & B3)|[(Ea & B1 & B2 & B3 & B4)|[(Ea & B1 & B2 & B3 & p & B4 & _ & B5)|(Ea & B1 & B2 & B3 & p & B4 & _ & B5)]]].
    + rewrite Ea. rewrite (Nonew ltac:(rewrite B2; apply named_parts_in; exact V0)) in P'. rewrite app_nil_r in P'.
      replace (tab s') with (tab s0) by (unfold tab; rewrite P', (Noal Ea); reflexivity).
      replace (map (org s') ps) with (nam (tab s0) n).
      * apply D_named. rewrite nam_tab. intros K. apply map_eq_nil in K. contradiction.
      * rewrite nam_tab, B2. apply map_ext_in. intros r Hr. symmetry. apply Old. apply (named_parts_in s0 n V0). exact Hr.
    + rewrite Ea. rewrite (Nonew ltac:(rewrite B3; apply unnamed_parts_in; exact V0)) in P'. rewrite app_nil_r in P'.
      replace (tab s') with (tab s0) by (unfold tab; rewrite P', (Noal Ea); reflexivity).
      replace (map (org s') ps) with (unn (tab s0) n).
      * apply D_unnamed; [rewrite nam_tab, B1; reflexivity|]. rewrite unn_tab by exact V0. intros K. apply map_eq_nil in K. contradiction.
      * rewrite unn_tab, B3 by exact V0. apply map_ext_in. intros r Hr. symmetry. apply Old. apply (unnamed_parts_in s0 n V0). exact Hr.
    + assert (Hn : new = [p]).
      { destruct B5 as [B5 _]. assert (~ In p (parts s0)) by (intros K; pose proof (in_parts s0 p I0 K); lia).
        assert (In p new) by (apply Hnew; rewrite B4; split; [left; reflexivity|assumption]).
        destruct new as [|x [|y l]]; [contradiction|..].
        - destruct H0 as [->|[]]. reflexivity.
        - exfalso. inversion ND; subst. apply H3. destruct (proj1 (Hnew x) (or_introl eq_refl)) as [[->|[]] _].
          destruct (proj1 (Hnew y) (or_intror (or_introl eq_refl))) as [[->|[]] _]. left; reflexivity. }
      destruct (Fresh n p B5) as (F1 & F2 & i & F3 & F4).
      rewrite Ea, B4. cbn [map]. rewrite F1. rewrite Hn in P'. cbn [map] in P'. rewrite F1, F4 in P'.
      replace (tab s') with (fst (tab s0) ++ [(p, iname i)], snd (tab s0))
        by (unfold tab; cbn [fst snd]; rewrite P', (Noal Ea); reflexivity).
      apply D_new; [rewrite nam_tab, B1; reflexivity|rewrite unn_tab, B2 by exact V0; reflexivity|exact F3|apply Fo; destruct B5; lia|].
      destruct B3 as [B3|B3]; [left; exact B3|right]. intros a o Ha Ho. exact (aliased_none s0 n V0 B3 a o Ha Ho).
    + assert (Hn : new = [p]).
      { destruct B5 as [B5 _]. assert (~ In p (parts s0)) by (intros K; pose proof (in_parts s0 p I0 K); lia).
        assert (In p new) by (apply Hnew; rewrite B4; split; [left; reflexivity|assumption]).
        destruct new as [|x [|y l]]; [contradiction|..].
        - destruct H0 as [->|[]]. reflexivity.
        - exfalso. inversion ND; subst. apply H3. destruct (proj1 (Hnew x) (or_introl eq_refl)) as [[->|[]] _].
          destruct (proj1 (Hnew y) (or_intror (or_introl eq_refl))) as [[->|[]] _]. left; reflexivity. }
      destruct (Fresh n p B5) as (F1 & F2 & i & F3 & F4).
      assert (Ha : al = aset String.eqb (alias ++ "." ++ n)%string [p] (aset String.eqb alias [p] (aliases s0))).
      { unfold is_empty_string in Hal. apply String.eqb_neq in Ea. rewrite Ea in Hal. rewrite B4 in Hal.
        apply (f_equal aliases) in Hal. cbn [aliases set_aliases set_parts] in Hal.
        unfold define_aliases in Hal. cbn [map fold_left] in Hal.
        assert (Af : aliases_for (set_parts (parts s0 ++ new) s2) p = []).
        { unfold aliases_for. change (aliases (set_parts (parts s0 ++ new) s2)) with (aliases s2). rewrite A2.
          apply flat_map_nil_all. intros [b qs] Hin. destruct (vi_alias s0 V0 b qs Hin) as [_ Hi].
          destruct qs as [|q [|q2 qs]]; try reflexivity. destruct (Nat.eqb q p) eqn:Eq; [|reflexivity]. exfalso.
          apply Nat.eqb_eq in Eq. subst q. pose proof (in_parts s0 p I0 (Hi p (or_introl eq_refl))). destruct B5; lia. }
        rewrite Af in Hal. cbn [fold_left] in Hal.
        assert (Pn : pname (getp (set_alias alias [p] (set_parts (parts s0 ++ new) s2)) p) = n).
        { change (pname (getp s2 p) = n). destruct (Hs2 p) as (_ & _ & K). destruct (G' p) as (_ & _ & K2). congruence. }
        rewrite Pn in Hal. unfold set_alias in Hal. cbn [aliases set_aliases set_parts] in Hal.
        change (aliases (set_aliases al (set_parts (parts s0 ++ new) s2))) with al in Hal. rewrite <- A2. exact Hal. }
      assert (At : atab s' = aset String.eqb (alias ++ "." ++ n)%string [p] (aset String.eqb alias [p] (atab s0))).
      { unfold atab at 1. rewrite Al', Ha. rewrite !aset_map. rewrite Atold. cbn [map]. rewrite F1. reflexivity. }
      rewrite B4. cbn [map]. rewrite F1. rewrite Hn in P'. cbn [map] in P'. rewrite F1, F4 in P'.
      replace (tab s') with (fst (tab s0) ++ [(p, iname i)], aset String.eqb (alias ++ "." ++ n)%string [p] (aset String.eqb alias [p] (snd (tab s0))))
        by (unfold tab; cbn [fst snd]; rewrite P', At; reflexivity).
      apply D_alias; [exact Ea|rewrite nam_tab, B1; reflexivity|rewrite nam_tab, B2; reflexivity|rewrite unn_tab, B3 by exact V0; reflexivity|exact F3|].
      apply Fo. destruct B5. lia.
  - destruct (string_dec alias "") as [Ea|Ea]; [|apply D_other; [discriminate|exact Ea|exact Stk]]. rewrite Ea in *.
    replace (tab s') with (fst (tab s0) ++ map (fun p => (org s' p, kind s' p)) new, snd (tab s0))
      by (unfold tab; cbn [fst snd]; rewrite P', (Noal eq_refl); reflexivity).
    apply D_group; [discriminate|]. apply Forall_map. apply Forall_forall. intros p Hp.
    apply Hnew in Hp. destruct Hp as [Hp Hq].
    destruct (determine_group (n :: m :: t) s0 ps s1 I0 V0 ltac:(discriminate) E p Hp) as [W|(x & W1 & W2 & W3 & W4)]; [contradiction|].
    destruct (Fresh x p W4) as (F1 & F2 & i & F3 & F4). split; cbn [fst snd].
    + rewrite F1. apply Fo. destruct W4; lia.
    + exists x, i. split; [exact W1|]. split; [rewrite nam_tab, W2; reflexivity|]. split; [rewrite unn_tab, W3 by exact V0; reflexivity|]. split; [exact F3|exact F4].
Qed.

(* ---------------- steps ---------------- *)

Lemma tab_frame : forall s s', inv s -> vinv s -> idext s s' -> parts s' = parts s -> aliases s' = aliases s -> tab s' = tab s.
Proof.
  intros s s' I V [_ X] P A. unfold tab, insts, atab. rewrite P, A. f_equal.
  - apply map_ext_in. intros r Hr. destruct (X r (in_parts s r I Hr)) as (B1 & B2 & _). unfold org, kind. congruence.
  - apply map_ext_in. intros [a ps] Hin. f_equal. apply map_ext_in. intros r Hr.
    destruct (vi_alias s V a ps Hin) as [_ Hi]. apply (X r (in_parts s r I (Hi r Hr))).
Qed.

Lemma step_tab : forall (L : label -> Prop) s s', inv s -> vinv s -> lstep L s s' ->
  tab s' = tab s \/ exists names alias cur, L (LPart names alias) /\ decl (tab s) names alias (tab s') cur.
Proof.
  intros L s s' I V H. destruct (step_inv s s' I (lstep_step _ _ _ H)) as [_ X].
  destruct H; try (left; apply (tab_frame s); [exact I|exact V|exact X|reflexivity|reflexivity]).
  - left. apply (tab_frame s); try assumption; apply emit_shape in H0; cbv zeta in H0;
      destruct H0 as [[-> _]|(c & us & Haud & Hn & Hcr & Hdet & Hus & ->)]; reflexivity.
  - left. destruct (vi_link s V p H) as [q [Hq Hl]].
    destruct (get_voice_shape s p n q I V H Hq Hl) as (v' & s1' & H' & Ep & Ec & Ea & Ee & _).
    rewrite H' in H0. inversion H0; subst v' s1'. apply (tab_frame s); assumption.
  - left. apply vend_tab; assumption.
  - right. exists names, alias, (map (org s') (current s')). split; [assumption|]. apply run_part_decl; assumption.
Qed.

Inductive tstar (L : label -> Prop) (D : tabs) : tabs -> Prop :=
| T_refl : tstar L D D
| T_step D1 D2 names alias cur : tstar L D D1 -> L (LPart names alias) -> decl D1 names alias D2 cur -> tstar L D D2.

Lemma star_tab : forall (L : label -> Prop) s s', lstar L s s' -> inv s -> vinv s -> tstar L (tab s) (tab s').
Proof.
  intros L s s' H. induction H as [|t u H1 IH H2]; intros I V; [constructor|].
  pose proof (lstar_star _ _ _ H1) as K. destruct (star_inv_idext _ _ K I) as [I2 _]. destruct (star_vinv _ _ K I V) as [V2 _].
  destruct (step_tab L t u I2 V2 H2) as [E|(names & alias & cur & A & B)].
  - rewrite E. apply IH; assumption.
  - eapply T_step; [apply IH; assumption|exact A|exact B].
Qed.

Lemma tstar_mono : forall (L L' : label -> Prop) D D', (forall l, L l -> L' l) -> tstar L D D' -> tstar L' D D'.
Proof. intros L L' D D' H K. induction K; [constructor|eapply T_step; [exact IHK|apply H; exact H0|exact H1]]. Qed.

Lemma tstar_ind2 : forall (L : label -> Prop) (P : tabs -> Prop), (forall D names alias D' cur, P D -> L (LPart names alias) -> decl D names alias D' cur -> P D') ->
  forall D D', tstar L D D' -> P D -> P D'.
Proof. intros L P H D D' K. induction K; intros HP; [exact HP|]. eapply H; [apply IHK; exact HP|exact H0|exact H1]. Qed.

(* ---------------- instrument names ---------------- *)

Lemma stock_facts : forallb (fun '(k, i) => negb (dot_access k) && negb (String.eqb (iname i) "N/A")) stock_instruments = true.
Proof. vm_compute. reflexivity. Qed.

Lemma stock_name : forall n i, stock_instrument n = Some i -> dot_access n = false /\ iname i <> "N/A" /\ stock_of n = iname i.
Proof.
  intros n i H. pose proof H as H0. Transparent stock_instrument. unfold stock_instrument in H. apply aget_in in H; [|intros; apply String.eqb_eq].
  pose proof stock_facts as F. rewrite forallb_forall in F. specialize (F _ H). cbn beta iota in F. apply andb_true_iff in F. destruct F as [F1 F2].
  apply negb_true_iff in F1. apply negb_true_iff in F2. apply String.eqb_neq in F2.
  split; [exact F1|]. split; [exact F2|]. unfold stock_of, stock_instrument_name. rewrite H0. reflexivity.
Qed.
Local Opaque stock_instrument.

Definition stocked (D : tabs) : Prop := forall o k, In (o, k) (fst D) -> exists n i, stock_instrument n = Some i /\ k = iname i.

Lemma decl_stocked : forall D names alias D' cur, stocked D -> decl D names alias D' cur -> stocked D'.
Proof.
  intros D names alias D' cur S H. destruct H; try exact S.
  - intros o' k Hin. cbn [fst] in Hin. apply in_app_or in Hin. destruct Hin as [Hin|[Hin|[]]]; [exact (S _ _ Hin)|].
    exists n, i. split; [assumption|congruence].
  - intros o' k Hin. cbn [fst] in Hin. apply in_app_or in Hin. destruct Hin as [Hin|[Hin|[]]]; [exact (S _ _ Hin)|].
    exists n, i. split; [assumption|congruence].
  - intros o' k Hin. cbn [fst] in Hin. apply in_app_or in Hin. destruct Hin as [Hin|Hin]; [exact (S _ _ Hin)|].
    rewrite Forall_forall in H0. destruct (H0 _ Hin) as [_ (n & i & _ & _ & _ & A & B)]. exists n, i. split; assumption.
  - intros o' k Hin. destruct (H1 _ _ Hin) as [A|A]; [exact (S _ _ A)|exact A].
Qed.

Lemma session_tstar : forall (L : label -> Prop) calls, (forall c, L (LChan c)) -> Forall (Forall (upd_all L)) calls -> tstar L ([], []) (tab (session calls)).
Proof.
  intros L calls Hc H. change (([], []) : tabs) with (tab new_score).
  apply star_tab; [|exact (session_inv [])|exact (session_vinv [])].
  apply (continue_lstar L calls new_score H). split; [intros n es []|intros off us []].
Qed.

Lemma session_stocked : forall calls, stocked (tab (session calls)).
Proof.
  intros calls. apply (tstar_ind2 (fun _ => True) stocked) with (D := ([], [])).
  - intros D names alias D' cur S _ H. eapply decl_stocked; eassumption.
  - apply session_tstar; [intros; exact I|]. apply Forall_forall. intros us _. apply Forall_forall. intros u _. apply upd_all_true.
  - intros o k [].
Qed.

Lemma unn_stock : forall D n, stocked D -> unn D n <> [] -> exists i, stock_instrument n = Some i.
Proof.
  intros D n S H. destruct (stock_instrument n) as [i|] eqn:E; [eexists; reflexivity|]. exfalso. apply H. unfold unn.
  replace (filter _ (fst D)) with (@nil (pid * string)); [reflexivity|]. symmetry. apply filter_none.
  intros [o k] Hin. destruct (S o k Hin) as (m & i & A & ->). destruct (stock_name m i A) as (_ & B & _).
  unfold stock_of, stock_instrument_name. rewrite E. cbn [option_map]. apply andb_false_iff. right. apply String.eqb_neq. exact B.
Qed.

(* ---------------- tame sessions ---------------- *)

Lemma dot_app : forall b x, dot_access (b ++ "." ++ x)%string = true.
Proof.
  intros b x. unfold dot_access. induction b as [|c b IH]; [reflexivity|].
  change (chars (String c b ++ "." ++ x)%string) with (c :: chars (b ++ "." ++ x)%string). cbn [existsb]. rewrite IH. apply orb_true_r.
Qed.
Lemma dot_split : forall b b' x x', dot_access b = false -> dot_access b' = false ->
  (b ++ "." ++ x)%string = (b' ++ "." ++ x')%string -> b = b'.
Proof.
  assert (U : forall c b, dot_access (String c b) = ceq dot c || dot_access b) by reflexivity.
  induction b as [|c b IH]; intros [|c' b'] x x' H H' E.
  - reflexivity.
  - exfalso. cbn in E. injection E as Ec _. subst c'. rewrite U in H'. discriminate.
  - exfalso. cbn in E. injection E as Ec _. subst c. rewrite U in H. discriminate.
  - cbn in E. injection E as -> E. rewrite U in H, H'. apply orb_false_iff in H. apply orb_false_iff in H'.
    f_equal. eapply IH; [apply H|apply H'|exact E].
Qed.

Definition well (D : tabs) : Prop :=
  stocked D /\
  (forall a os, In (a, os) (snd D) -> exists o, os = [o] /\ In o (map fst (fst D))) /\
  (forall a os, In (a, os) (snd D) -> dot_access a = true ->
     exists b x, a = (b ++ "." ++ x)%string /\ dot_access b = false /\ nam D b <> []).

Lemma in_aset : forall (l : list (string * list pid)) k v a os, In (a, os) (aset String.eqb k v l) -> (a = k /\ os = v) \/ In (a, os) l.
Proof.
  induction l as [|[b qs] l IH]; intros k v a os H; cbn [aset] in H.
  - destruct H as [H|[]]. left. inversion H. auto.
  - destruct (String.eqb b k) eqn:E.
    + apply String.eqb_eq in E. destruct H as [H|H]; [left; inversion H; subst; auto|right; right; exact H].
    + destruct H as [H|H]; [right; left; exact H|]. destruct (IH _ _ _ _ H) as [A|A]; [left; exact A|right; right; exact A].
Qed.
Lemma aget_app : forall (l l' : list (string * list pid)) k, aget String.eqb k (l ++ l') =
  match aget String.eqb k l with Some x => Some x | None => aget String.eqb k l' end.
Proof. induction l as [|[b qs] l IH]; intros l' k; [reflexivity|]. cbn [app aget]. destruct (String.eqb b k); [reflexivity|apply IH]. Qed.
Lemma aset_none : forall (l : list (string * list pid)) k v, aget String.eqb k l = None -> aset String.eqb k v l = l ++ [(k, v)].
Proof.
  induction l as [|[b qs] l IH]; intros k v H; [reflexivity|]. cbn [aget aset] in *. destruct (String.eqb b k); [discriminate|].
  cbn [app]. rewrite IH by exact H. reflexivity.
Qed.
Lemma nam_none : forall D a, well D -> nam D a = [] -> aget String.eqb a (snd D) = None.
Proof.
  intros D a (_ & W & _) H. unfold nam in H. destruct (aget String.eqb a (snd D)) as [l|] eqn:E; [|reflexivity].
  apply aget_in in E; [|intros; apply String.eqb_eq]. destruct (W _ _ E) as [o [-> _]]. discriminate.
Qed.
(** In a tame session the dotted name of a fresh alias is fresh as well. *)
Lemma nam_dot : forall D a n, well D -> dot_access a = false -> nam D a = [] -> aget String.eqb (a ++ "." ++ n)%string (snd D) = None.
Proof.
  intros D a n (_ & _ & W) Ha H. destruct (aget String.eqb (a ++ "." ++ n)%string (snd D)) as [l|] eqn:E; [|reflexivity]. exfalso.
  apply aget_in in E; [|intros; apply String.eqb_eq]. destruct (W _ _ E (dot_app a n)) as (b & x & A & B & C).
  apply C. rewrite <- (dot_split a b n x Ha B A). exact H.
Qed.
Lemma dot_neq : forall a n, a <> (a ++ "." ++ n)%string.
Proof. induction a as [|c a IH]; intros n H; [discriminate|]. cbn in H. injection H as H. exact (IH n H). Qed.

Lemma alias_table : forall D a n o, well D -> dot_access a = false -> nam D a = [] ->
  aset String.eqb (a ++ "." ++ n)%string [o] (aset String.eqb a [o] (snd D)) = snd D ++ [(a, [o]); ((a ++ "." ++ n)%string, [o])].
Proof.
  intros D a n o W Ha H. rewrite (aset_none (snd D) a [o]) by (apply nam_none; assumption). rewrite aset_none.
  - rewrite <- app_assoc. reflexivity.
  - rewrite aget_app. rewrite (nam_dot D a n W Ha H). cbn [aget].
    destruct (String.eqb a (a ++ "." ++ n)%string) eqn:E; [|reflexivity]. exfalso. apply String.eqb_eq in E. exact (dot_neq a n E).
Qed.

Lemma nam_app : forall (D D' : tabs) l b, snd D' = snd D ++ l -> nam D b <> [] -> nam D' b = nam D b.
Proof.
  intros D D' l b E H. unfold nam in *. rewrite E, aget_app. destruct (aget String.eqb b (snd D)); [reflexivity|contradiction].
Qed.

(** A declaration of a tame session. *)
Lemma tame_decl : forall D names alias D' cur, well D -> tame (LPart names alias) -> decl D names alias D' cur ->
  well D' /\ exists news l, fst D' = fst D ++ news /\ snd D' = snd D ++ l /\
    (forall o, In o (map fst news) -> ~ In o (map fst (fst D))) /\
    (forall a os, In (a, os) l -> alias <> "" /\ (a = alias \/ exists n, a = (alias ++ "." ++ n)%string)) /\
    ((l = [] /\ Forall (known_new D names) news) \/
     (exists n i o, names = [n] /\ alias <> "" /\ unn D n = [] /\ stock_instrument n = Some i /\ news = [(o, iname i)] /\
        dot_access alias = false /\ l = [(alias, [o]); ((alias ++ "." ++ n)%string, [o])] /\ nam D alias = [])).
Proof.
  intros D names alias D' cur W T H. pose proof (decl_stocked _ _ _ _ _ (proj1 W) H) as S'.
  assert (Same : forall news, Forall (known_new D names) news -> stocked (fst D ++ news, snd D) -> well (fst D ++ news, snd D)).
  { intros news _ S. destruct W as (_ & W1 & W2). split; [exact S|]. split; cbn [fst snd].
    - intros a os Hin. destruct (W1 a os Hin) as [o [A B]]. exists o. split; [exact A|]. rewrite map_app. apply in_or_app. left; exact B.
    - exact W2. }
  assert (D0 : D = (fst D ++ [], snd D)) by (rewrite app_nil_r; apply surjective_pairing).
  destruct H.
  - split; [exact W|]. exists [], []. rewrite !app_nil_r. do 2 (split; [reflexivity|]). split; [intros o []|]. split; [intros a os []|]. left. auto.
  - split; [exact W|]. exists [], []. rewrite !app_nil_r. do 2 (split; [reflexivity|]). split; [intros o []|]. split; [intros a os []|]. left. auto.
  - assert (K : Forall (known_new D [n]) [(o, iname i)]).
    { constructor; [|constructor]. split; [exact H2|]. exists n, i. split; [left; reflexivity|]. auto. }
    split; [apply Same; assumption|]. exists [(o, iname i)], []. cbn [fst snd]. rewrite app_nil_r. do 2 (split; [reflexivity|]).
    split; [intros o' [<-|[]]; exact H2|]. split; [intros a os []|]. left. auto.
  - destruct T as [T|[_ T]]; [contradiction|]. rewrite (alias_table D a n o W T H1) in *. split.
    + destruct W as (_ & W1 & W2). split; [exact S'|]. cbn [fst snd]. split.
      * intros b os Hin. apply in_app_or in Hin. rewrite map_app. destruct Hin as [Hin|[Hin|[Hin|[]]]].
        -- destruct (W1 b os Hin) as [o' [A B]]. exists o'. split; [exact A|]. apply in_or_app. left; exact B.
        -- inversion Hin; subst. exists o. split; [reflexivity|]. apply in_or_app. right; left; reflexivity.
        -- inversion Hin; subst. exists o. split; [reflexivity|]. apply in_or_app. right; left; reflexivity.
      * intros b os Hin Hd. apply in_app_or in Hin. destruct Hin as [Hin|[Hin|[Hin|[]]]].
        -- destruct (W2 b os Hin Hd) as (c & x & A & B & C). exists c, x. split; [exact A|]. split; [exact B|].
           rewrite (nam_app D _ [(a, [o]); ((a ++ "." ++ n)%string, [o])] c); [exact C|reflexivity|exact C].
        -- inversion Hin; subst. congruence.
        -- inversion Hin; subst. exists a, n. split; [reflexivity|]. split; [exact T|].
           unfold nam. cbn [snd]. rewrite aget_app. unfold nam in H1. destruct (aget String.eqb a (snd D)) as [l|] eqn:E.
           ++ apply aget_in in E; [|intros; apply String.eqb_eq]. destruct (W1 _ _ E) as [o' [-> _]]. discriminate.
           ++ cbn [aget]. rewrite String.eqb_refl. discriminate.
    + exists [(o, iname i)], [(a, [o]); ((a ++ "." ++ n)%string, [o])]. cbn [fst snd]. do 2 (split; [reflexivity|]).
      split; [intros o' [<-|[]]; exact H4|]. split.
      * intros b os [Hin|[Hin|[]]]; inversion Hin; subst; (split; [exact H|]); [left; reflexivity|right; eexists; reflexivity].
      * right. exists n, i, o. auto 10.
  - split; [apply Same; assumption|]. exists news, []. cbn [fst snd]. rewrite app_nil_r. do 2 (split; [reflexivity|]).
    split; [|split; [intros a os []|left; auto]].
    intros o Ho. apply in_map_iff in Ho. destruct Ho as [[o' k] [<- Hin]]. rewrite Forall_forall in H0. apply (H0 _ Hin).
  - exfalso. destruct T as [T|[T _]]; contradiction.
Qed.

Lemma well_star : forall D D', tstar tame D D' -> well D -> well D'.
Proof. intros D D'. apply tstar_ind2. intros E names alias E' cur W T H. apply (tame_decl _ _ _ _ _ W T H). Qed.

Lemma nam_star : forall a D D', tstar tame D D' -> well D -> nam D a <> [] -> nam D' a = nam D a.
Proof.
  intros a D D' H W Hn. induction H as [|D1 D2 names alias cur H1 IH HL Hd]; [reflexivity|].
  pose proof (well_star _ _ H1 W) as W1. destruct (tame_decl _ _ _ _ _ W1 HL Hd) as (_ & news & l & _ & E & _).
  rewrite (nam_app D1 D2 l a E); rewrite IH; [reflexivity|exact Hn].
Qed.

Lemma namedo_in : forall D o, namedo D o = true <-> exists a os, In (a, os) (snd D) /\ In o os.
Proof.
  intros D o. unfold namedo. rewrite existsb_exists. split.
  - intros [[a os] [A B]]. apply existsb_In in B. eauto.
  - intros (a & os & A & B). exists (a, os). split; [exact A|]. apply existsb_exists. exists o. split; [exact B|apply Nat.eqb_refl].
Qed.

Lemma unn_same_stock : forall D n m, stock_of n = stock_of m -> unn D n = unn D m.
Proof. intros D n m H. unfold unn. rewrite H. reflexivity. Qed.

(** Unnamed instances stay the same. *)
Lemma unn_decl : forall n D names alias D' cur, well D -> tame_but n (LPart names alias) -> decl D names alias D' cur ->
  unn D n <> [] -> nam D n = [] -> unn D' n = unn D n /\ nam D' n = [].
Proof.
  intros n D names alias D' cur W [T Ta] H Hu Hn.
  destruct (unn_stock D n (proj1 W) Hu) as [i Hi]. destruct (stock_name n i Hi) as (Hdot & _ & Hst).
  destruct (tame_decl _ _ _ _ _ W T H) as (W' & news & l & E1 & E2 & Hf & Hl & Hcase).
  assert (N0 : nam D' n = []).
  { unfold nam. rewrite E2, aget_app, (nam_none D n W Hn). destruct (aget String.eqb n l) as [os|] eqn:E; [|reflexivity]. exfalso.
    apply aget_in in E; [|intros; apply String.eqb_eq]. destruct (Hl _ _ E) as [_ [A|[x A]]].
    - apply Ta. symmetry. exact A.
    - rewrite A, dot_app in Hdot. discriminate. }
  split; [|exact N0]. unfold unn. rewrite E1, filter_app, map_app.
  assert (Nold : forall o, In o (map fst (fst D)) -> namedo D' o = namedo D o).
  { intros o Ho. apply Bool.eq_iff_eq_true. rewrite !namedo_in. rewrite E2. split; intros (a & os & A & B).
    - apply in_app_or in A. destruct A as [A|A]; [eauto|]. exfalso.
      destruct Hcase as [[-> _]|(m & j & o' & _ & _ & _ & _ & Enews & _ & El & _)]; [destruct A|]. subst l news.
      assert (o = o') by (destruct A as [A|[A|[]]]; inversion A; subst; destruct B as [B|[]]; congruence). subst o'.
      apply (Hf o (or_introl eq_refl) Ho).
    - exists a, os. split; [apply in_or_app; left; exact A|exact B]. }
  replace (filter (fun '(o, k) => negb (namedo D' o) && String.eqb k (stock_of n)) news) with (@nil (pid * string)).
  - rewrite app_nil_r. f_equal. apply filter_ext_in. intros [o k] Hin. rewrite Nold; [reflexivity|].
    apply in_map_iff. exists (o, k). split; [reflexivity|exact Hin].
  - symmetry. apply filter_none. intros [o k] Hin.
    destruct Hcase as [[_ Hk]|(m & j & o' & _ & _ & _ & _ & Enews & _ & El & _)].
    + rewrite Forall_forall in Hk. destruct (Hk _ Hin) as [_ (m & j & _ & _ & Hm & Hj & Hkj)]. cbn [snd] in Hkj.
      destruct (stock_name m j Hj) as (_ & _ & Hsm). apply andb_false_iff. right. apply String.eqb_neq. intros E.
      apply Hu. rewrite (unn_same_stock D n m); [exact Hm|congruence].
    + subst news. destruct Hin as [Hin|[]]. inversion Hin; subst. apply andb_false_iff. left. apply negb_false_iff.
      apply namedo_in. exists alias, [o]. split; [rewrite E2; apply in_or_app; right; left; reflexivity|left; reflexivity].
Qed.

Lemma unn_star : forall n D D', tstar (tame_but n) D D' -> well D -> unn D n <> [] -> nam D n = [] -> unn D' n = unn D n /\ nam D' n = [].
Proof.
  intros n D D' H W Hu Hn. induction H as [|D1 D2 names alias cur H1 IH HL Hd]; [split; [reflexivity|exact Hn]|].
  assert (W1 : well D1) by (eapply well_star; [eapply tstar_mono; [|exact H1]; intros l0 K; apply K|exact W]).
  destruct IH as [A B]. destruct (unn_decl n D1 names alias D2 cur W1 HL Hd) as [C F]; [rewrite A; exact Hu|exact B|].
  split; [congruence|exact F].
Qed.

(** What a single declaration without alias selects. *)
Lemma decl_single : forall D n D' cur, decl D [n] "" D' cur ->
  (nam D n <> [] /\ D' = D /\ cur = nam D n) \/
  (nam D n = [] /\ nam D' n = [] /\ unn D n <> [] /\ D' = D /\ cur = unn D n) \/
  (nam D n = [] /\ unn D n = [] /\ exists i o, stock_instrument n = Some i /\ ~ In o (map fst (fst D)) /\ cur = [o] /\ D' = (fst D ++ [(o, iname i)], snd D)).
Proof.
  intros D n D' cur H. inversion H; subst.
  - left. auto.
  - right; left. auto.
  - right; right. split; [assumption|]. split; [assumption|]. exists i, o. auto.
  - contradiction.
  - exfalso. apply H0. reflexivity.
  - exfalso. apply H0. reflexivity.
Qed.

Lemma unn_new : forall D n i o, well D -> unn D n = [] -> stock_instrument n = Some i -> ~ In o (map fst (fst D)) ->
  unn (fst D ++ [(o, iname i)], snd D) n = [o].
Proof.
  intros D n i o W Hu Hi Ho. destruct (stock_name n i Hi) as (_ & _ & Hst).
  assert (No : namedo D o = false).
  { destruct (namedo D o) eqn:E; [|reflexivity]. exfalso. apply namedo_in in E. destruct E as (a & os & A & B).
    destruct W as (_ & W1 & _). destruct (W1 a os A) as [o' [-> K]]. destruct B as [<-|[]]. contradiction. }
  unfold unn in *. cbn [fst snd]. rewrite filter_app, map_app. cbn [filter].
  change (namedo (fst D ++ [(o, iname i)], snd D)) with (namedo D). rewrite Hu, No, Hst, String.eqb_refl. reflexivity.
Qed.

(* ---------------- C22 ---------------- *)

Lemma exec_parts : forall names a s, exec [UPart names a] s = run_part names a s.
Proof.
  intros names a s. unfold exec, run_all. cbn [each]. change (run 1 (UPart names a) s) with (run_part names a s).
  destruct (run_part names a s) as [s1 o1]; destruct o1; reflexivity.
Qed.
Lemma exec_part : forall names a s s' o, exec [UPart names a] s = (s', o) -> run_part names a s = (s', o).
Proof.
  intros names a s s' o H. rewrite exec_parts in H. exact H.
Qed.

Lemma denotes_nam : forall s a, denotes s a = nam (tab s) a.
Proof. intros s a. rewrite nam_tab. reflexivity. Qed.

Lemma well_nil : well ([], []).
Proof. split; [intros o k []|]. split; intros a os []. Qed.

Lemma session_well : forall calls, Forall (Forall (upd_all tame)) calls -> well (tab (session calls)).
Proof. intros calls H. eapply well_star; [|exact well_nil]. apply session_tstar; [intros; exact I|exact H]. Qed.

Lemma continue_ok : forall s calls, inv s -> vinv s -> inv (continue s calls) /\ vinv (continue s calls).
Proof.
  intros s calls I V. assert (K : lstar (fun _ => True) s (continue s calls)).
  { apply continue_lstar.
    - apply Forall_forall. intros us _. apply Forall_forall. intros u _. apply upd_all_true.
    - split; [intros; apply Forall_forall; intros; apply upd_all_true|]. intros; apply Forall_forall. intros u _. destruct u; exact Logic.I. }
  destruct (star_inv_idext _ _ K I) as [I2 _]. destruct (star_vinv _ _ K I V) as [V2 _]. auto.
Qed.
Lemma part_ok : forall names a s s', inv s -> vinv s -> run_part names a s = (s', Ok) -> inv s' /\ vinv s'.
Proof.
  intros names a s s' I V H.
  assert (K : lstep (fun _ => True) s s') by (eapply St_part; [exact H|exact Logic.I]).
  destruct (step_inv _ _ I K) as [A _]. destruct (step_vinv _ _ I V K) as [B _]. auto.
Qed.

Lemma c22_resume : forall calls later n s1 s3, let s := session calls in
  Forall (Forall (upd_all tame)) calls -> stored (tame_but n) s -> Forall (Forall (upd_all (tame_but n))) later ->
  exec [UPart [n] ""] s = (s1, Ok) -> exec [UPart [n] ""] (continue s1 later) = (s3, Ok) ->
  players s3 = players s1.
Proof.
  intros calls later n s1 s3 s Hc Hs Hl H1 H3. apply exec_part in H1. apply exec_part in H3.
  pose proof (session_inv calls) as I. pose proof (session_vinv calls) as V. fold s in I, V.
  destruct (part_ok _ _ _ _ I V H1) as [I1 V1]. destruct (continue_ok s1 later I1 V1) as [I2 V2].
  pose proof (session_well calls Hc) as W. fold s in W.
  pose proof (run_part_decl _ _ _ _ I V H1) as D1. pose proof (run_part_decl _ _ _ _ I2 V2 H3) as D3.
  assert (W1 : well (tab s1)) by (apply (tame_decl _ _ _ _ _ W (or_introl eq_refl) D1)).
  assert (St : store_all (tame_but n) s) by (apply stored_store; [intros; split; exact Logic.I|exact Hs]).
  assert (St1 : store_all (tame_but n) s1).
  { assert (K : lstep (fun _ => True) s s1) by (eapply St_part; [exact H1|exact Logic.I]).
    destruct (run_part_shape _ _ _ _ I V H1) as (ps & s' & new & al & E & Hs' & _). rewrite Hs'.
    destruct (vend_inv s I) as [I0 X0]. destruct (vend_vinv s I V) as (V0 & _).
    destruct (determine_parts_grows _ _ _ _ _ I0 V0 E) as (G & _). destruct (grows_tables _ _ G) as (_ & _ & _ & _ & _ & T1 & T2 & _).
    assert (Ev : variables (run_voice_end s) = variables s /\ globals (run_voice_end s) = globals s) by apply vend_loop_store.
    destruct Ev as [Ev1 Ev2]. destruct St as [A B]. split.
    - intros x es. cbn [set_current set_aliases set_parts variables].
      assert (Q : variables (match parts (run_voice_end s), ps with [], p0 :: _ => modp p0 (set_pmaster true) s' | _, _ => s' end) = variables s)
        by (destruct (parts (run_voice_end s)); [destruct ps|]; cbn; congruence).
      rewrite Q. apply A.
    - intros x es. cbn [set_current set_aliases set_parts globals].
      assert (Q : globals (match parts (run_voice_end s), ps with [], p0 :: _ => modp p0 (set_pmaster true) s' | _, _ => s' end) = globals s)
        by (destruct (parts (run_voice_end s)); [destruct ps|]; cbn; congruence).
      rewrite Q. apply B. }
  assert (Tl : tstar (tame_but n) (tab s1) (tab (continue s1 later))).
  { apply star_tab; [|exact I1|exact V1]. apply continue_lstar; assumption. }
  assert (Tt : tstar tame (tab s1) (tab (continue s1 later))) by (eapply tstar_mono; [|exact Tl]; intros l K; apply K).
  unfold players. change (map (instance s3) (current s3)) with (map (org s3) (current s3)). change (map (instance s1) (current s1)) with (map (org s1) (current s1)).
  assert (Un : nam (tab s1) n = [] -> unn (tab s1) n <> [] -> map (org s1) (current s1) = unn (tab s1) n -> map (org s3) (current s3) = map (org s1) (current s1)).
  { intros A1 A2 A3. destruct (unn_star n _ _ Tl W1 A2 A1) as [B1 B2]. rewrite A3, <- B1.
    destruct (decl_single _ _ _ _ D3) as [(C1 & _)|[(C1 & _ & C2 & _ & C3)|(C1 & C2 & _)]]; [contradiction|exact C3|].
    exfalso. rewrite B1 in C2. contradiction. }
  destruct (decl_single _ _ _ _ D1) as [(A1 & A2 & A3)|[(A1 & A1' & A2 & A3 & A4)|(A1 & A2 & i & o & A3 & A4 & A5 & A6)]].
  - rewrite <- A2 in A1, A3. pose proof (nam_star n _ _ Tt W1 A1) as B.
    destruct (decl_single _ _ _ _ D3) as [(C1 & _ & C3)|[(C1 & _)|(C1 & _)]]; [congruence|exfalso; congruence|exfalso; congruence].
  - apply Un; [exact A1'|rewrite A3; exact A2|rewrite A3; exact A4].
  - pose proof (unn_new _ _ _ _ W A2 A3 A4) as B. rewrite <- A6 in B. apply Un.
    + rewrite A6. exact A1.
    + rewrite B. discriminate.
    + rewrite B. exact A5.
Qed.

Lemma c22_alias : forall calls later a, let s := session calls in
  Forall (Forall (upd_all tame)) calls -> Forall (Forall (upd_all tame)) later -> denotes s a <> [] ->
  denotes (continue s later) a = denotes s a.
Proof.
  intros calls later a s Hc Hl Hn. rewrite !denotes_nam in *.
  assert (E : continue s later = session (calls ++ later)) by (unfold s, session, continue; rewrite fold_left_app; reflexivity).
  apply nam_star; [|apply session_well; exact Hc|exact Hn].
  apply star_tab; [|apply session_inv|apply session_vinv]. apply continue_lstar; [exact Hl|].
  assert (K : lstar tame new_score s) by (apply continue_lstar; [exact Hc|split; [intros x es []|intros x es []]]).
  eapply star_store; [exact K|split; [intros x es []|intros x es []]].
Qed.

Lemma single_err : forall n a s, inv s -> vinv s ->
  (a <> "" /\ (nam (tab s) n <> [] \/ nam (tab s) a <> [] \/ unn (tab s) n <> [])) \/
  (a = "" /\ dot_access n = false /\ exists b o, In (b, [o]) (atab s) /\ In (o, stock_of n) (insts s)) ->
  exists m, exec [UPart [n] a] s = (run_voice_end s, Err m).
Proof.
  intros n a s I V H. rewrite exec_parts. unfold run_part.
  destruct (vend_inv s I) as [I0 _]. destruct (vend_vinv s I V) as (V0 & _). pose proof (vend_tab s I V) as T.
  set (s0 := run_voice_end s) in *.
  assert (R : exists m, determine_parts [n] a s0 = RErr m); [|destruct R as [m ->]; exists m; reflexivity].
  unfold determine_parts, is_empty_string. rewrite <- T in H.
  change (atab s) with (snd (tab s)) in H. change (insts s) with (fst (tab s)) in H. rewrite <- T in H.
  destruct H as [[Ha H]|[Ha [Hd H]]].
  - apply String.eqb_neq in Ha. rewrite Ha. cbn [negb andb]. rewrite nam_tab, nam_tab, unn_tab in H by exact V0.
    destruct (named_parts s0 n) eqn:E1; [|eexists; reflexivity]. cbn [nonempty].
    destruct (named_parts s0 a) eqn:E2; [|eexists; reflexivity]. cbn [nonempty].
    destruct (unnamed_parts s0 n) eqn:E3; [|eexists; reflexivity]. exfalso. cbn in H. destruct H as [H|[H|H]]; apply H; reflexivity.
  - subst a. cbn [String.eqb negb andb orb]. rewrite Hd. destruct (aliased_stock s0 n) eqn:E; [|eexists; reflexivity].
    exfalso. destruct H as (b & o & H1 & H2). exact (aliased_none s0 n V0 E b o H1 H2).
Qed.

Lemma c22_taken : forall calls n a, let s := session calls in a <> "" -> denotes s a <> [] \/ denotes s n <> [] ->
  exists m, exec [UPart [n] a] s = (fst (exec [UVoiceEnd] s), Err m).
Proof.
  intros calls n a s Ha H. rewrite !denotes_nam in H. destruct (single_err n a s (session_inv calls) (session_vinv calls)) as [m E].
  - left. tauto.
  - exists m. rewrite E. destruct (exec [UVoiceEnd] s) as [x o] eqn:Ex. apply exec_end in Ex. destruct Ex as [_ ->]. reflexivity.
Qed.

Lemma aliased_iff : forall s p, aliased s p <-> is_named s p = true.
Proof.
  intros s p. unfold aliased, is_named. rewrite existsb_exists. split.
  - intros (a & ps & A & B). exists (a, ps). split; [exact A|]. apply existsb_In. exact B.
  - intros [[a ps] [A B]]. apply existsb_In in B. eauto.
Qed.

(** Asking for an instrument both with and without an alias. *)
Lemma c22_mixing : forall calls n a p, let s := session calls in
  In p (parts s) -> stock_instrument_name n = Some (kind s p) ->
  (a = "" /\ exists b, named_parts s b = [p]) \/ (a <> "" /\ ~ aliased s p) ->
  exists m, exec [UPart [n] a] s = (fst (exec [UVoiceEnd] s), Err m).
Proof.
  intros calls n a p s Hp Hk H. pose proof (session_inv calls) as I. pose proof (session_vinv calls) as V. fold s in I, V.
  assert (Hso : stock_of n = kind s p) by (unfold stock_of; rewrite Hk; reflexivity).
  destruct (single_err n a s I V) as [m E].
  - destruct H as [(-> & b & Hb)|[Ha Hna]].
    + right. split; [reflexivity|]. split.
      * unfold stock_instrument_name in Hk. destruct (stock_instrument n) as [i|] eqn:Ei; [|discriminate]. apply (stock_name n i Ei).
      * exists b, (org s p). split.
        -- unfold named_parts in Hb. destruct (aget String.eqb b (aliases s)) as [l|] eqn:El; [|discriminate]. subst l.
           apply aget_in in El; [|intros; apply String.eqb_eq]. unfold atab. apply in_map_iff. exists (b, [p]). split; [reflexivity|exact El].
        -- unfold insts. apply in_map_iff. exists p. split; [rewrite Hso; reflexivity|exact Hp].
    + left. split; [exact Ha|]. right; right. rewrite unn_tab by exact V. intros K. apply map_eq_nil in K.
      assert (Hin : In p (unnamed_parts s n)); [|rewrite K in Hin; destruct Hin].
      unfold unnamed_parts. apply filter_In. split; [exact Hp|]. rewrite Hso. fold (kind s p). rewrite String.eqb_refl, andb_true_r.
      apply negb_true_iff. destruct (is_named s p) eqn:En; [|reflexivity]. exfalso. apply Hna.
      apply aliased_iff. exact En.
  - exists m. rewrite E. destruct (exec [UVoiceEnd] s) as [x o] eqn:Ex. apply exec_end in Ex. destruct Ex as [_ ->]. reflexivity.
Qed.

(** Declaring instruments one by one. *)
Definition separate (D : tabs) : Prop :=
  well D /\ forall o o' k, In (o, k) (fst D) -> In (o', k) (fst D) -> o <> o' -> namedo D o = true /\ namedo D o' = true.

Lemma namedo_ext : forall (D D' : tabs) l o, snd D' = snd D ++ l -> namedo D o = true -> namedo D' o = true.
Proof.
  intros D D' l o E H. apply namedo_in in H. apply namedo_in. destruct H as (a & os & A & B). exists a, os. split; [|exact B].
  rewrite E. apply in_or_app. left; exact A.
Qed.

Lemma unn_nil : forall D n o k, unn D n = [] -> In (o, k) (fst D) -> k = stock_of n -> namedo D o = true.
Proof.
  intros D n o k H Hin ->. destruct (namedo D o) eqn:E; [reflexivity|]. exfalso.
  assert (K : In o (unn D n)); [|rewrite H in K; destruct K]. unfold unn. apply in_map_iff. exists (o, stock_of n). split; [reflexivity|].
  apply filter_In. split; [exact Hin|]. rewrite E, String.eqb_refl. reflexivity.
Qed.

Lemma separate_decl : forall D names alias D' cur, separate D -> one_by_one (LPart names alias) -> decl D names alias D' cur -> separate D'.
Proof.
  intros D names alias D' cur [W S] [T1 T2] H. assert (T : tame (LPart names alias)) by (right; auto).
  destruct (tame_decl _ _ _ _ _ W T H) as (W' & news & l & E1 & E2 & _). split; [exact W'|].
  assert (Old : forall o o' k, In (o, k) (fst D) -> In (o', k) (fst D) -> o <> o' -> namedo D' o = true /\ namedo D' o' = true).
  { intros o o' k A B C. destruct (S o o' k A B C) as [X Y]. split; eapply namedo_ext; eassumption. }
  destruct H; try contradiction; try exact S.
  - (* new *)
    assert (No : forall o' k, In (o', k) (fst D) -> k <> iname i).
    { intros o' k Hin ->. destruct (stock_name n i H1) as (Hd & _ & Hst). rewrite Hd in H3. destruct H3 as [H3|H3]; [discriminate|].
      pose proof (unn_nil D n o' (iname i) H0 Hin (eq_sym Hst)) as K. apply namedo_in in K. destruct K as (a & os & A & B).
      destruct W as (_ & W1 & _). destruct (W1 a os A) as [o2 [-> _]]. destruct B as [<-|[]]. apply (H3 a o2 A). rewrite Hst. exact Hin. }
    intros o1 o2 k A B C. cbn [fst] in A, B. apply in_app_or in A. apply in_app_or in B.
    destruct A as [A|[A|[]]]; destruct B as [B|[B|[]]].
    + apply (Old _ _ _ A B C).
    + exfalso. apply (No _ _ A). congruence.
    + exfalso. apply (No _ _ B). congruence.
    + exfalso. apply C. congruence.
  - (* alias *)
    assert (Ex : forall o' k, In (o', k) (fst D) -> k = iname i -> namedo D o' = true).
    { intros o' k Hin ->. destruct (stock_name n i H3) as (_ & _ & Hst). eapply unn_nil; [exact H2|exact Hin|congruence]. }
    assert (Nw : namedo (fst D ++ [(o, iname i)], aset String.eqb (a ++ "." ++ n)%string [o] (aset String.eqb a [o] (snd D))) o = true).
    { rewrite (alias_table D a n o W T2 H1). apply namedo_in. exists a, [o]. split; [cbn [snd]; apply in_or_app; right; left; reflexivity|left; reflexivity]. }
    intros o1 o2 k A B C. cbn [fst] in A, B. apply in_app_or in A. apply in_app_or in B.
    destruct A as [A|[A|[]]]; destruct B as [B|[B|[]]].
    + apply (Old _ _ _ A B C).
    + assert (o2 = o /\ k = iname i) by (split; congruence). destruct H5 as [-> ->]. split; [|exact Nw].
      eapply namedo_ext; [exact E2|]. eapply Ex; [exact A|reflexivity].
    + assert (o1 = o /\ k = iname i) by (split; congruence). destruct H5 as [-> ->]. split; [exact Nw|].
      eapply namedo_ext; [exact E2|]. eapply Ex; [exact B|reflexivity].
    + exfalso. apply C. congruence.
Qed.

Lemma c22_unmixed : forall calls p q, let s := session calls in Forall (Forall (upd_all one_by_one)) calls ->
  In p (parts s) -> In q (parts s) -> p <> q -> kind s p = kind s q -> aliased s p /\ aliased s q.
Proof.
  intros calls p q s Hc Hp Hq Hne Hk. pose proof (session_vinv calls) as V. fold s in V.
  assert (S : separate (tab s)).
  { apply (tstar_ind2 one_by_one separate) with (D := ([], [])).
    - intros D names alias D' cur S T H. eapply separate_decl; eassumption.
    - apply session_tstar; [intros; exact I|exact Hc].
    - split; [exact well_nil|]. intros o o' k []. }
  destruct S as [_ S]. rewrite !aliased_iff, <- !named_tab by assumption.
  apply (S (org s p) (org s q) (kind s p)).
  - cbn [tab fst]. unfold insts. apply in_map_iff. exists p. auto.
  - cbn [tab fst]. unfold insts. apply in_map_iff. exists q. rewrite Hk. auto.
  - intros E. apply Hne. eapply NoDup_map_inj; [apply (vi_parts s V)|exact Hp|exact Hq|exact E].
Qed.

(** Unknown instruments. *)
Lemma group_unknown : forall names s0 s n, inv s0 -> grows s0 s -> In n names -> stock_instrument n = None ->
  named_parts s0 n = [] -> unnamed_parts s0 n = [] -> exists m, group_parts names s = RErr m.
Proof.
  induction names as [|x t IH]; intros s0 s n I G Hin Hs Hn Hu; [destruct Hin|]. cbn [group_parts].
  rewrite (named_grows s0 s x G), (unnamed_grows s0 s x I G).
  destruct (string_dec x n) as [->|Hne].
  - rewrite Hn, Hu. cbn [nonempty]. unfold new_part. rewrite Hs. eexists; reflexivity.
  - destruct Hin as [Hin|Hin]; [contradiction|].
    destruct (nonempty (named_parts s0 x)); [|destruct (nonempty (unnamed_parts s0 x))].
    + destruct (IH s0 s n I G Hin Hs Hn Hu) as [m ->]. eexists; reflexivity.
    + destruct (IH s0 s n I G Hin Hs Hn Hu) as [m ->]. eexists; reflexivity.
    + destruct (new_part x s) as [[p s1]|m|m] eqn:E.
      * cbn [rbind]. destruct (new_part_grows _ _ _ _ E) as [G1 _].
        destruct (IH s0 s1 n I (grows_trans _ _ _ G G1) Hin Hs Hn Hu) as [m ->]. eexists; reflexivity.
      * eexists; reflexivity.
      * exfalso. unfold new_part in E. destruct (stock_instrument x); discriminate.
Qed.

Lemma c22_unknown : forall calls names a n, let s := session calls in In n names -> ~ known s n ->
  exists m, exec [UPart names a] s = (fst (exec [UVoiceEnd] s), Err m).
Proof.
  intros calls names a n s Hin Hk. pose proof (session_inv calls) as I. pose proof (session_vinv calls) as V. fold s in I, V.
  destruct (vend_inv s I) as [I0 _]. destruct (vend_vinv s I V) as (V0 & _). pose proof (vend_tab s I V) as T.
  assert (Hs : stock_instrument n = None) by (destruct (stock_instrument n) eqn:E; [exfalso; apply Hk; left; congruence|reflexivity]).
  assert (Hn : named_parts (run_voice_end s) n = []).
  { assert (K : nam (tab s) n = []) by (rewrite nam_tab; destruct (named_parts s n) eqn:E; [reflexivity|exfalso; apply Hk; right; congruence]).
    rewrite <- T, nam_tab in K. apply map_eq_nil in K. exact K. }
  assert (Hu : unnamed_parts (run_voice_end s) n = []).
  { destruct (unn (tab s) n) as [|o l] eqn:E.
    - rewrite <- T, unn_tab in E by exact V0. apply map_eq_nil in E. exact E.
    - exfalso. destruct (unn_stock (tab s) n (session_stocked calls)) as [i Hi]; [fold s; rewrite E; discriminate|congruence]. }
  assert (R : exists m, determine_parts names a (run_voice_end s) = RErr m).
  { assert (Np : new_part n (run_voice_end s) = RErr "unrecognized instrument") by (unfold new_part; rewrite Hs; reflexivity).
    assert (Gr : forall A (k : _ -> res A), exists m, rbind (group_parts names (run_voice_end s)) k = RErr m).
    { intros A k. destruct (group_unknown names _ _ n I0 (grows_refl _) Hin Hs Hn Hu) as [m ->]. eexists; reflexivity. }
    destruct names as [|x [|y t]]; [destruct Hin| |].
    - destruct Hin as [->|[]]. unfold determine_parts. rewrite Hn, Hu, Np. cbn [nonempty].
      destruct (is_empty_string a); cbn [negb andb orb].
      + destruct (_ && _); eexists; reflexivity.
      + destruct (nonempty _); eexists; reflexivity.
    - unfold determine_parts. destruct (has_dup _); [eexists; reflexivity|]. apply Gr. }
  destruct R as [m R]. exists m. rewrite exec_parts. unfold run_part. rewrite R.
  destruct (exec [UVoiceEnd] s) as [x o] eqn:Ex. apply exec_end in Ex. destruct Ex as [_ ->]. reflexivity.
Qed.
End Declare.

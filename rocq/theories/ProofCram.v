(** Proof of C10: crams fill exactly the time they are given. *)
From Coq Require Import ZArith QArith Qcanon List String Bool Lia Lqa Arith Field.
From Verif Require Import Base Num ModelPitch ModelDuration ModelInstruments ModelTypes ModelLisp
  ModelScore ProofNum SpecScore SpecVars SpecParts SpecSolo SpecTiming SpecCram ProofHeap ProofStep ProofInv ProofEvents
  ProofVoices ProofVars ProofSafe ProofTracks ProofSolo ProofTiming.
Import ListNotations.
Local Open Scope Qc_scope.

Notation MAXQ := (Q2Qc (inject_Z ((2 ^ 53 - 1) * 2 ^ 971))).
Lemma maxq : xq_maxval = Fin MAXQ. Proof. reflexivity. Qed.
Lemma leb_maxq : forall q, xq_leb (Fin q) xq_maxval = true <-> q <= MAXQ.
Proof. intros q. rewrite maxq, xq_leb_fin. apply qc_leb_le. Qed.
Global Opaque xq_maxval.

(* ---------------- induction over events ---------------- *)
Fixpoint cev_ind' (P : cev -> Prop) (Hi : forall i, P (EvItem i)) (Hc : forall i l, P (EvChord i l))
  (Hr : forall l d, Forall P l -> P (EvCram l d)) (e : cev) {struct e} : P e :=
  match e with
  | EvItem i => Hi i
  | EvChord i l => Hc i l
  | EvCram l d => Hr l d ((fix go (l : list cev) : Forall P l :=
                             match l with [] => Forall_nil _ | e :: r => Forall_cons e (cev_ind' P Hi Hc Hr e) (go r) end) l)
  end.

Fixpoint annl (b : bool) (l : list cev) : option bool :=
  match l with [] => Some b | e :: r => match annotated b e with Some b' => annl b' r | None => None end end.
Lemma annl_fix : forall l b, (fix go (b : bool) (l : list cev) {struct l} : option bool :=
               match l with [] => Some b | e :: r => match annotated b e with Some b' => go b' r | None => None end end) b l = annl b l.
Proof. induction l as [|e l IH]; intros b; [reflexivity|]. cbn [annl]. destruct (annotated b e); [apply IH|reflexivity]. Qed.
Lemma properl : forall t l, (fix go (l : list cev) {struct l} : Prop := match l with [] => True | e :: r => proper t e /\ go r end) l
  <-> Forall (proper t) l.
Proof.
  intros t l. induction l as [|e l IH]; [split; constructor|]. split.
  - intros [A B]. constructor; [exact A|]. apply IH, B.
  - intros H. inversion H; subst. split; [assumption|]. apply IH; assumption.
Qed.
Fixpoint placedl (t q off f : Qc) (dflt : xduration) (l : list cev) : list (Qc * Qc * Qc) :=
  match l with
  | [] => []
  | e :: r => placed t q off f dflt e ++ placedl t q (off + weight t dflt e * f) f (after dflt e) r
  end.
Lemma placedl_fix : forall t q f' l off dflt,
  (fix go (l : list cev) (off : Qc) (dflt : xduration) {struct l} : list (Qc * Qc * Qc) :=
         match l with
         | [] => []
         | e :: r => placed t q off f' dflt e ++ go r (off + weight t dflt e * f') (after dflt e)
         end) l off dflt = placedl t q off f' dflt l.
Proof. induction l as [|e l IH]; intros off dflt; [reflexivity|]. cbn [placedl]. rewrite IH. reflexivity. Qed.

(* ---------------- least ---------------- *)
Lemma least_mul : forall f l x, 0 < f -> least (x * f) (map (fun y => y * f) l) = least x l * f.
Proof.
  intros f l x Hf. revert x. induction l as [|y l IH]; intros x; [reflexivity|]. cbn [least map].
  replace (if qc_ltb (x * f) (y * f) then x * f else y * f) with ((if qc_ltb x y then x else y) * f); [apply IH|].
  destruct (qc_ltb x y) eqn:E.
  - apply qc_ltb_lt in E. assert (F : x * f < y * f) by (apply Qcmult_lt_compat_r; assumption). apply qc_ltb_lt in F. rewrite F. reflexivity.
  - apply qc_ltb_ge in E. assert (F : y * f <= x * f) by (apply Qcmult_le_compat_r; [assumption|apply Qclt_le_weak; assumption]).
    apply qc_ltb_ge in F. rewrite F. reflexivity.
Qed.
Lemma least_le : forall l x, least x l <= x.
Proof.
  induction l as [|y l IH]; intros x; [apply Qcle_refl|]. cbn [least]. destruct (qc_ltb x y) eqn:E; [apply IH|].
  apply qc_ltb_ge in E. eapply Qcle_trans; [apply IH|exact E].
Qed.
Lemma least_pos : forall l x, 0 < x -> Forall (fun y => 0 < y) l -> 0 < least x l.
Proof.
  induction l as [|y l IH]; intros x Hx Hl; [exact Hx|]. inversion Hl; subst. cbn [least]. apply IH; [|assumption]. destruct (qc_ltb x y); assumption.
Qed.
Lemma fold_min_fin : forall l x, fold_left xq_min (map Fin l) (Fin x) = Fin (least x l).
Proof.
  induction l as [|y l IH]; intros x; [reflexivity|]. cbn [fold_left map least].
  change (xq_min (Fin x) (Fin y)) with (if qc_ltb x y then Fin x else Fin y). destruct (qc_ltb x y); apply IH.
Qed.
Lemma least_in : forall l x, least x l = x \/ In (least x l) l.
Proof.
  induction l as [|y l IH]; intros x; [left; reflexivity|]. cbn [least]. destruct (qc_ltb x y).
  - destruct (IH x); [left; assumption|right; right; assumption].
  - right. destruct (IH y) as [->|]; [left; reflexivity|right; assumption].
Qed.
Lemma least_lower : forall l x y, y = x \/ In y l -> least x l <= y.
Proof.
  induction l as [|z l IH]; intros x y H; cbn [least].
  - destruct H as [->|[]]. apply Qcle_refl.
  - destruct (qc_ltb x z) eqn:E.
    + destruct H as [->|[<-|H]]; [apply IH; left; reflexivity| |apply IH; right; exact H].
      eapply Qcle_trans; [apply IH; left; reflexivity|]. apply Qclt_le_weak, qc_ltb_lt, E.
    + destruct H as [->|[<-|H]]; [|apply IH; left; reflexivity|apply IH; right; exact H].
      eapply Qcle_trans; [apply IH; left; reflexivity|]. apply qc_ltb_ge, E.
Qed.
Lemma fold_min_max : forall l x, least x l <= MAXQ -> fold_left xq_min (map Fin (x :: l)) xq_maxval = Fin (least x l).
Proof.
  intros l x H. rewrite maxq, fold_min_fin. f_equal. apply Qcle_antisym.
  - destruct (least_in l x) as [E|E]; apply least_lower; right; [left; symmetry; exact E|right; exact E].
  - destruct (least_in (x :: l) MAXQ) as [-> | [E|E]]; [exact H| |].
    + rewrite <- E. apply least_le.
    + apply least_lower. right. exact E.
Qed.

(* ---------------- positivity ---------------- *)
Section Tempo.
Variable t q : Qc.
Notation ok d := (match d with Some _ => lasting t d | None => True end).

Lemma meant_lasting : forall d df, ok d -> lasting t df -> lasting t (meant d df).
Proof. intros [d|] df A B; assumption. Qed.
Lemma inforce_lasting : forall l df, Forall (fun j : xitem => ok (it_dur j)) l -> lasting t df -> lasting t (inforce_after df l).
Proof.
  induction l as [|i l IH]; intros df H A; [exact A|]. inversion H; subst. unfold inforce_after in *. cbn [fold_left]. apply IH; [assumption|].
  apply meant_lasting; assumption.
Qed.
Lemma after_lasting : forall e df, proper t e -> lasting t df -> lasting t (after df e).
Proof.
  intros [i|i l|l d] df H A; cbn [proper after] in *.
  - apply meant_lasting; assumption.
  - apply inforce_lasting; [constructor; tauto|exact A].
  - apply meant_lasting; tauto.
Qed.
Lemma meants_lasting : forall l df, Forall (fun j : xitem => ok (it_dur j)) l -> lasting t df -> Forall (lasting t) (meants df l).
Proof.
  induction l as [|i l IH]; intros df H A; cbn [meants]; [constructor|]. inversion H; subst.
  constructor; [apply meant_lasting; assumption|]. apply IH; [assumption|]. apply meant_lasting; assumption.
Qed.
Lemma weight_bounds : forall e df, proper t e -> lasting t df -> 0 < weight t df e /\ weight t df e <= MAXQ.
Proof.
  intros [i|i l|l d] df H A; cbn [proper weight] in *.
  - apply (meant_lasting _ df) in H; [|exact A]. destruct H as (_ & P & B). apply leb_maxq in B. split; assumption.
  - destruct H as [H1 H2]. apply (meant_lasting _ df) in H1; [|exact A]. pose proof (meants_lasting l _ H2 H1) as H3.
    destruct H1 as (_ & P & B). apply leb_maxq in B. split.
    + apply least_pos; [exact P|]. apply Forall_forall. intros y Hy. apply in_map_iff in Hy. destruct Hy as [d [<- Hd]].
      rewrite Forall_forall in H3. apply H3, Hd.
    + eapply Qcle_trans; [apply least_le|exact B].
  - destruct H as (_ & H & _). apply (meant_lasting _ df) in H; [|exact A]. destruct H as (_ & P & B). apply leb_maxq in B. split; assumption.
Qed.
Lemma total_nonneg : forall l df, Forall (proper t) l -> lasting t df -> 0 <= total t df l.
Proof.
  induction l as [|e l IH]; intros df H A; cbn [total]; [apply Qcle_refl|]. inversion H; subst.
  destruct (weight_bounds e df) as [P _]; [assumption|assumption|].
  assert (0 <= total t (after df e) l) by (apply IH; [assumption|apply after_lasting; assumption]). qclra.
Qed.
Lemma total_pos : forall l df, l <> [] -> Forall (proper t) l -> lasting t df -> 0 < total t df l.
Proof.
  intros [|e l] df Hn H A; [contradiction|]. cbn [total]. inversion H; subst.
  destruct (weight_bounds e df) as [P _]; [assumption|assumption|].
  assert (0 <= total t (after df e) l) by (apply total_nonneg; [assumption|apply after_lasting; assumption]). qclra.
Qed.

(* ---------------- DurationMs ---------------- *)
Lemma eff : forall d (p : @part XQ) df, (d = None -> pdur p = df) -> effective_dur d p = meant d df.
Proof. intros [d|] p df H; [reflexivity|]. cbn. rewrite H; reflexivity. Qed.
Lemma default_after : forall d (p : @part XQ) df, (d = None -> pdur p = df) -> pdur (update_default_dur d p) = meant d df.
Proof. intros [d|] p df H; [reflexivity|]. cbn. apply H. reflexivity. Qed.
Lemma default_tempo : forall d (p : @part XQ), ptempo (update_default_dur d p) = ptempo p.
Proof. intros [d|] p; reflexivity. Qed.

Lemma play_dur : forall dr i (p : @part XQ), dur_upd dr (play i) p = note_dur (it_dur i) p.
Proof. intros dr [[[pi sl]|] d] p; reflexivity. Qed.
Lemma chord_dur : forall dr l (p : @part XQ) df a, Forall (fun j : xitem => ok (it_dur j)) l -> lasting t df ->
  ptempo p = Fin t -> pdur p = df ->
  exists p', (fix go (l : list update) (p : part) (acc : num) : dres :=
         match l with
         | [] => (p, acc, Ok)
         | e :: t => dseq (dur_upd dr e p) (fun p d => go t p (if nltb n0 d then nmin acc d else acc))
         end) (map play l) p (Fin a) = (p', Fin (least a (map (ms t) (meants df l))), Ok) /\
    ptempo p' = Fin t /\ pdur p' = inforce_after df l.
Proof.
  intros dr. induction l as [|i l IH]; intros p df a H A T D; cbn [map meants least].
  - exists p. split; [reflexivity|]. split; assumption.
  - inversion H; subst. rewrite play_dur. unfold note_dur. cbn [dseq].
    assert (L := meant_lasting (it_dur i) (pdur p) H2 A).
    rewrite (eff _ _ (pdur p)) by reflexivity. rewrite T. destruct L as (L1 & L2 & L3). rewrite L1.
    change (@nltb XQ n0 (Fin (ms t (meant (it_dur i) (pdur p))))) with (qc_ltb 0 (ms t (meant (it_dur i) (pdur p)))).
    rewrite (proj2 (qc_ltb_lt _ _) L2).
    change (@nmin XQ (Fin a) (Fin (ms t (meant (it_dur i) (pdur p))))) with
      (if qc_ltb a (ms t (meant (it_dur i) (pdur p))) then Fin a else Fin (ms t (meant (it_dur i) (pdur p)))).
    destruct (IH (update_default_dur (it_dur i) p) (meant (it_dur i) (pdur p))
      (if qc_ltb a (ms t (meant (it_dur i) (pdur p))) then a else ms t (meant (it_dur i) (pdur p)))) as (p' & B & C & E);
      [assumption|apply meant_lasting; assumption|rewrite default_tempo; exact T|apply default_after; reflexivity|].
    exists p'. split; [|split; [exact C|exact E]]. rewrite <- B. destruct (qc_ltb a _); reflexivity.
Qed.
Lemma dur_ev : forall dr e b b' (p : @part XQ) df, proper t e -> annotated b e = Some b' -> ptempo p = Fin t ->
  (b = true -> pdur p = df) -> lasting t df ->
  exists p', dur_upd dr (written e) p = (p', Fin (weight t df e), Ok) /\ ptempo p' = Fin t /\ (b' = true -> pdur p' = after df e).
Proof.
  intros dr [i|i l|l d] b b' p df H An T D A; cbn [proper annotated weight after written] in *.
  - assert (D' : it_dur i = None -> pdur p = df).
    { intros E. rewrite E in An. apply D. destruct b; [reflexivity|discriminate]. }
    rewrite play_dur. unfold note_dur. rewrite T, (eff _ _ df) by exact D'.
    exists (update_default_dur (it_dur i) p). rewrite (proj1 (meant_lasting _ df H A)).
    split; [reflexivity|]. split; [rewrite default_tempo; exact T|]. intros _. apply default_after, D'.
  - destruct H as [H1 H2].
    assert (D' : it_dur i = None -> pdur p = df).
    { intros E. rewrite E in An. apply D. destruct b; [reflexivity|discriminate]. }
    assert (L := meant_lasting _ df H1 A). destruct L as (L1 & L2 & L3).
    cbn [map dur_upd]. rewrite play_dur. unfold note_dur at 1. cbn [dseq]. rewrite T, (eff _ _ df) by exact D'. rewrite L1.
    change (@nltb XQ n0 (Fin (ms t (meant (it_dur i) df)))) with (qc_ltb 0 (ms t (meant (it_dur i) df))).
    rewrite (proj2 (qc_ltb_lt _ _) L2).
    assert (M : @nmin XQ (@nmaxval XQ) (Fin (ms t (meant (it_dur i) df))) = Fin (ms t (meant (it_dur i) df))).
    { change (xq_min xq_maxval (Fin (ms t (meant (it_dur i) df))) = Fin (ms t (meant (it_dur i) df))). apply leb_maxq in L3. rewrite maxq. cbn [xq_min xq_ltb]. apply qc_ltb_ge in L3. rewrite L3. reflexivity. }
    rewrite M.
    destruct (chord_dur dr l (update_default_dur (it_dur i) p) (meant (it_dur i) df) (ms t (meant (it_dur i) df))) as (p' & B & C & E);
      [assumption|apply meant_lasting; assumption|rewrite default_tempo; exact T|apply default_after; exact D'|].
    exists p'. split; [exact B|]. split; [exact C|]. intros _. exact E.
  - destruct H as (_ & H & _). rewrite annl_fix in An. destruct (annl true l); [|discriminate].
    assert (D' : d = None -> pdur p = df).
    { intros ->. apply D. destruct b; [reflexivity|discriminate]. }
    exists p. cbn [dur_upd]. rewrite T, (eff _ _ df) by exact D'. rewrite (proj1 (meant_lasting _ df H A)).
    split; [reflexivity|]. split; [reflexivity|]. intros ->. destruct d; [discriminate|]. apply D'. reflexivity.
Qed.
Lemma dur_evs : forall dr l b b' (p : @part XQ) df acc, Forall (proper t) l -> annl b l = Some b' -> ptempo p = Fin t ->
  (b = true -> pdur p = df) -> lasting t df ->
  exists p', dur_sum (dur_upd dr) (map written l) p (Fin acc) = (p', Fin (acc + total t df l), Ok).
Proof.
  intros dr. induction l as [|e l IH]; intros b b' p df acc H An T D A; cbn [map dur_sum total].
  - exists p. replace (acc + 0) with acc by ring. reflexivity.
  - inversion H; subst. cbn [annl] in An. destruct (annotated b e) as [b1|] eqn:E1; [|discriminate].
    destruct (dur_ev dr e b b1 p df H2 E1 T D A) as (p1 & B & C & F). rewrite B. cbn [dseq].
    change (@nadd XQ (Fin acc) (Fin (weight t df e))) with (Fin (acc + weight t df e)).
    destruct (IH b1 b' p1 (after df e) (acc + weight t df e) H3 An C F (after_lasting _ _ H2 A)) as (p' & G).
    exists p'. rewrite Qcplus_assoc. exact G.
Qed.

(* ---------------- playing ---------------- *)
Record calmly (x : @solo XQ) : Prop := Calmly {
  c_chord : so_chord x = false; c_glob : ga_offs (so_glob x) = [];
  c_tempo : ptempo (so_part x) = Fin t; c_quant : pquant (so_part x) = Fin q }.

Lemma sounding_fin : forall i off len,
  sounding (N := XQ) (Fin q) [i] [Fin off] [Fin len] = map as_num (sound_of q i off len).
Proof.
  intros i off len. unfold sounding, sound_of. cbn [combine flat_map]. destruct (it_note i) as [[pi sl]|]; [|reflexivity].
  unfold audible. destruct sl.
  - change (@nltb XQ n0 (Fin len)) with (qc_ltb 0 len). destruct (qc_ltb 0 len); reflexivity.
  - change (@nmul XQ (Fin len) (Fin q)) with (Fin (len * q)). change (@nltb XQ n0 (Fin (len * q))) with (qc_ltb 0 (len * q)).
    destruct (qc_ltb 0 (len * q)); reflexivity.
Qed.
Lemma sounding_chord : forall l ds off f, Forall (lasting t) ds -> List.length ds = List.length l ->
  sounding (N := XQ) (Fin q) l (map (fun _ => Fin off) l) (map (fun d => nmul (dur_ms_of (Fin t) d) (Fin f)) ds)
  = map as_num (flat_map (fun '(j, d) => sound_of q j off (ms t d * f)) (combine l ds)).
Proof.
  induction l as [|i l IH]; intros ds off f H Hl; [reflexivity|]. destruct ds as [|d ds]; [discriminate|].
  inversion H as [|? ? H1 H2]; subst. cbn [map combine flat_map]. rewrite map_app, <- (IH ds); [|assumption|injection Hl; auto].
  rewrite <- sounding_fin. unfold sounding. cbn [combine flat_map]. rewrite (proj1 H1).
  change (@nmul XQ (Fin (ms t d)) (Fin f)) with (Fin (ms t d * f)). rewrite app_nil_r. reflexivity.
Qed.
Lemma meants_length : forall (l : list xitem) df, List.length (meants df l) = List.length l.
Proof. induction l as [|i l IH]; intros df; cbn; [reflexivity|]. rewrite IH. reflexivity. Qed.

Lemma chord_glob : forall sd dd l m (x y : @solo XQ), so_chord x = true -> ochord (s_upd sd dd) (map play l) m x = Some y ->
  so_glob y = so_glob x.
Proof.
  intros sd dd. induction l as [|i l IH]; intros m x y Hc H; cbn [map ochord] in H; [apply some_inj in H; subst; reflexivity|].
  rewrite s_play_upd in H. destruct (s_play i x) as [z|] eqn:Ez; [|discriminate]. cbn [obind] in H.
  unfold s_play, s_note in Ez. rewrite Hc in Ez. cbn [obind] in Ez. destruct (dur_valid (it_dur i)); [|discriminate].
  assert (Z : so_glob z = so_glob x /\ so_chord z = true).
  { unfold s_note_one in Ez. destruct (it_note i) as [[pi sl]|].
    - unfold s_emit in Ez. destruct (nltb _ _); [destruct (_ || _)%bool; [discriminate|]|]; cbn [obind] in Ez; apply some_inj in Ez; subst z; split; (reflexivity || exact Hc).
    - cbn [obind] in Ez. apply some_inj in Ez; subst z. split; [reflexivity|exact Hc]. }
  destruct Z as [Z1 Z2]. rewrite <- Z1. eapply IH; eassumption.
Qed.

Variable sd : string -> @solo XQ -> option (@solo XQ).
Variable dd : list (string * list (@update XQ)) -> string -> @part XQ -> @dres XQ.

Definition plays_right (e : cev) : Prop := forall b b' x y off f, proper t e -> annotated b e = Some b' ->
  calmly x -> lasting t (pdur (so_part x)) -> pscale (so_part x) = Fin f -> 0 < f -> pcur (so_part x) = Fin off ->
  weight t (pdur (so_part x)) e * f <= MAXQ ->
  s_upd sd dd (written e) x = Some y ->
  calmly y /\ pscale (so_part y) = Fin f /\
  pcur (so_part y) = Fin (off + weight t (pdur (so_part x)) e * f) /\
  pdur (so_part y) = after (pdur (so_part x)) e /\
  exists new, so_notes y = so_notes x ++ new /\ map times new = map as_num (placed t q off f (pdur (so_part x)) e).

Lemma plays_list : forall l, Forall plays_right l -> forall b b' x y off f, Forall (proper t) l -> annl b l = Some b' ->
  calmly x -> lasting t (pdur (so_part x)) -> pscale (so_part x) = Fin f -> 0 < f -> pcur (so_part x) = Fin off ->
  total t (pdur (so_part x)) l * f <= MAXQ ->
  oeach (s_upd sd dd) (map written l) x = Some y ->
  calmly y /\ pscale (so_part y) = Fin f /\
  pcur (so_part y) = Fin (off + total t (pdur (so_part x)) l * f) /\
  exists new, so_notes y = so_notes x ++ new /\ map times new = map as_num (placedl t q off f (pdur (so_part x)) l).
Proof.
  intros l HP. induction HP as [|e l He Hl IH]; intros b b' x y off f Hp An C A Sc Hf Cu Bd H; cbn [map oeach total placedl] in *.
  - apply some_inj in H. subst y. split; [exact C|]. split; [exact Sc|]. split; [rewrite Cu; f_equal; ring|].
    exists []. split; [symmetry; apply app_nil_r|reflexivity].
  - inversion Hp; subst. cbn [annl] in An. destruct (annotated b e) as [b1|] eqn:E1; [|discriminate].
    destruct (s_upd sd dd (written e) x) as [z|] eqn:Ez; [|discriminate]. cbn [obind] in H.
    assert (N1 : 0 <= total t (after (pdur (so_part x)) e) l * f).
    { replace 0 with (0 * f) by ring. apply Qcmult_le_compat_r; [|apply Qclt_le_weak, Hf].
      apply total_nonneg; [assumption|apply after_lasting; assumption]. }
    assert (N2 : 0 <= weight t (pdur (so_part x)) e * f).
    { replace 0 with (0 * f) by ring. apply Qcmult_le_compat_r; [|apply Qclt_le_weak, Hf].
      apply Qclt_le_weak. apply weight_bounds; assumption. }
    assert (Ex : (weight t (pdur (so_part x)) e + total t (after (pdur (so_part x)) e) l) * f
                 = weight t (pdur (so_part x)) e * f + total t (after (pdur (so_part x)) e) l * f) by ring.
    rewrite Ex in *.
    destruct (He b b1 x z off f) as (C1 & S1 & P1 & D1 & new1 & N3 & N4); try assumption.
    { eapply Qcle_trans; [|exact Bd]. revert N1. generalize (weight t (pdur (so_part x)) e * f) (total t (after (pdur (so_part x)) e) l * f). intros a c N1. qclra. }
    destruct (IH b1 b' z y (off + weight t (pdur (so_part x)) e * f) f) as (C2 & S2 & P2 & new2 & M1 & M2); try assumption.
    { rewrite D1. apply after_lasting; assumption. }
    { rewrite D1. eapply Qcle_trans; [|exact Bd]. revert N2. generalize (weight t (pdur (so_part x)) e * f) (total t (after (pdur (so_part x)) e) l * f). intros a c N2. qclra. }
    rewrite D1 in *. split; [exact C2|]. split; [exact S2|]. split; [rewrite P2; f_equal; ring|].
    exists (new1 ++ new2). split; [rewrite M1, N3; symmetry; apply app_assoc|]. rewrite !map_app, N4, M2. reflexivity.
Qed.
Lemma plays_all : forall e, plays_right e.
Proof.
  induction e as [i|i l|l d HP] using cev_ind'; intros b b' x y off f Hp An C A Sc Hf Cu Bd H; cbn [proper annotated weight after placed written] in *.
  - rewrite s_play_upd in H. unfold s_play, s_note in H. rewrite (c_chord _ C) in H.
    destruct (s_globals x) as [w|] eqn:Ew; [|discriminate]. cbn [obind] in H. destruct (dur_valid _); [|discriminate].
    apply s_globals_quiet in Ew; [|apply C]. subst w.
    destruct (s_note_one_facts i (on_part (set_povr None) x) y (c_chord _ C) H) as (F & G & _ & _ & I1 & new & J1 & J2).
    cbn [on_part so_part so_notes so_chord so_glob] in *. cbn [set_povr pdur ptempo pscale pcur pquant] in *.
    destruct C as [C1 C2 C3 C4].
    rewrite C3, Sc, Cu, C4, (proj1 (meant_lasting _ _ Hp A)) in *.
    change (@nmul XQ (Fin (ms t (meant (it_dur i) (pdur (so_part x))))) (Fin f)) with (Fin (ms t (meant (it_dur i) (pdur (so_part x))) * f)) in *.
    split; [split; [congruence|congruence|rewrite F; exact C3|rewrite F; exact C4]|].
    split; [rewrite F; exact Sc|]. split; [rewrite F; reflexivity|]. split; [rewrite F; reflexivity|].
    exists new. split; [exact J1|]. rewrite J2. apply sounding_fin.
  - cbn [s_upd] in H. destruct (s_globals x) as [w|] eqn:Ew; [|discriminate]. cbn [obind] in H.
    apply s_globals_quiet in Ew; [|apply C]. subst w.
    destruct Hp as [Hp1 Hp2].
    assert (Hp' : Forall (fun j : xitem => ok (it_dur j)) (i :: l)) by (constructor; assumption).
    assert (Hct : so_chord (with_chord true (on_part (set_povr None) x)) = true) by reflexivity.
    pose proof (chord_glob sd dd (i :: l) _ _ _ Hct H) as G.
    destruct (ochord_solo sd dd (i :: l) _ _ _ Hct H) as ((T1 & T2 & T3) & P1 & _ & P2 & P3 & new & J1 & J2).
    cbn [with_chord on_part so_part so_notes so_chord so_glob] in *. cbn [set_povr pdur ptempo pscale pcur pquant] in *.
    destruct C as [C1 C2 C3 C4]. rewrite C3, Sc, Cu, C4 in *.
    split; [split; [exact P2|congruence|exact T1|exact T3]|]. split; [exact T2|].
    assert (ML := meants_lasting _ _ Hp' A).
    assert (EL : lengths (N := XQ) (Fin t) (Fin f) (pdur (so_part x)) (i :: l) = map Fin (map (fun d => ms t d * f) (meants (pdur (so_part x)) (i :: l)))).
    { unfold lengths. rewrite map_map. apply map_ext_in. intros d Hd. rewrite Forall_forall in ML. rewrite (proj1 (ML d Hd)). reflexivity. }
    split; [|split; [exact P3|]].
    + rewrite P1. change (@nmin XQ) with xq_min. change (@nmaxval XQ) with xq_maxval. rewrite EL.
      change (meants (pdur (so_part x)) (i :: l)) with (meant (it_dur i) (pdur (so_part x)) :: meants (meant (it_dur i) (pdur (so_part x))) l).
      cbn [map].
      assert (LM : least (ms t (meant (it_dur i) (pdur (so_part x))) * f) (map (fun d => ms t d * f) (meants (meant (it_dur i) (pdur (so_part x))) l))
        = least (ms t (meant (it_dur i) (pdur (so_part x)))) (map (ms t) (meants (meant (it_dur i) (pdur (so_part x))) l)) * f).
      { rewrite <- least_mul by exact Hf. rewrite map_map. reflexivity. }
      pose proof (fold_min_max (map (fun d => ms t d * f) (meants (meant (it_dur i) (pdur (so_part x))) l)) (ms t (meant (it_dur i) (pdur (so_part x))) * f)) as FM.
      etransitivity; [apply (f_equal (@nadd XQ (Fin off))); apply FM; rewrite LM; exact Bd|]. rewrite LM. reflexivity.
    + exists new. split; [exact J1|]. rewrite J2. unfold lengths. apply sounding_chord; [exact ML|apply meants_length].
  - destruct Hp as (Hne & Hd & Hl). rewrite properl in Hl. rewrite annl_fix in An.
    destruct (annl true l) as [b1|] eqn:E1; [|discriminate].
    cbn [s_upd] in H.
    destruct (dur_evs (dd (so_vars x)) l true b1 (set_povr None (so_part x)) (pdur (so_part x)) 0 Hl E1) as (p' & G); [apply C|reflexivity|exact A|].
    unfold time_scale, inner_dur in H. change (@n0 XQ) with (Fin 0) in H. 
    match type of G with ?l = _ => match type of H with context [dur_sum ?a ?b ?c ?d] => change (dur_sum a b c d) with l in H end end.
    rewrite G in H. cbn [fst snd] in H.
    assert (ML := meant_lasting _ _ Hd A).
    change (effective_dur d (so_part x)) with (meant d (pdur (so_part x))) in H.
    rewrite (c_tempo _ C), (proj1 ML), Sc in H.
    pose proof (total_pos l _ Hne Hl A) as TP.
    set (W := total t (pdur (so_part x)) l) in *. set (o := ms t (meant d (pdur (so_part x)))) in *.
    assert (Wn : W <> 0) by (intros E; exact (Qclt_not_eq _ _ TP (eq_sym E))).
    replace (0 + W) with W in H by ring.
    change (@ndiv XQ (Fin f) (Fin W)) with (xq_div (Fin f) (Fin W)) in H. rewrite xq_div_fin in H by exact Wn.
    change (@nmul XQ (Fin (f / W)) (Fin o)) with (Fin (f / W * o)) in H. cbv zeta in H.
    assert (Ef : f / W * o = f * o / W) by (field; exact Wn).
    rewrite Ef in H. set (f' := f * o / W) in *.
    assert (Hf' : 0 < f').
    { unfold f'. unfold Qcdiv. assert (Wi : 0 < / W). { apply Qc_lt_this. rewrite this_inv. apply Qinv_lt_0_compat. exact TP. }
      replace 0 with (0 * / W) by ring. apply Qcmult_lt_compat_r; [exact Wi|]. replace 0 with (0 * o) by ring.
      apply Qcmult_lt_compat_r; [apply ML|exact Hf]. }
    assert (Wf : W * f' = o * f) by (unfold f'; field; exact Wn).
    destruct (oeach (s_upd sd dd) (map written l) (on_part (@set_pscale XQ (Fin f')) x)) as [z|] eqn:Ez; [|discriminate].
    cbn [obind] in H. apply some_inj in H.
    destruct (plays_list l HP true b1 (on_part (@set_pscale XQ (Fin f')) x) z off f') as (C1 & S1 & P1 & new & M1 & M2); try assumption.
    { destruct C as [X1 X2 X3 X4]. split; assumption. }
    { reflexivity. }
    { change (W * f' <= MAXQ). rewrite Wf. exact Bd. }
    change (pdur (so_part (on_part (@set_pscale XQ (Fin f')) x))) with (pdur (so_part x)) in *. fold W in P1. rewrite Wf in P1.
    subst y. destruct C1 as [Y1 Y2 Y3 Y4].
    split; [split; assumption|]. split; [reflexivity|]. split; [exact P1|]. split; [reflexivity|].
    exists new. split; [exact M1|]. rewrite M2, placedl_fix. reflexivity.
Qed.
End Tempo.

Lemma written_acts : forall sd dr e, acts (fun _ => True) False (run_upd sd (dur_deref dr) (written e)) (s_upd (s_deref 0) (dur_deref dr) (written e)).
Proof.
  intros sd dr. induction e as [i|i l|l d HP] using cev_ind'; cbn [written].
  - apply play_acts.
  - apply chord_acts. apply Forall_forall. intros u Hu. apply in_map_iff in Hu. destruct Hu as [j [<- _]]. apply play_acts.
  - apply cram_acts; [intros; apply dur_deref_com|]. apply Forall_forall. intros u Hu. apply in_map_iff in Hu. destruct Hu as [j [<- Hj]].
    rewrite Forall_forall in HP. apply HP, Hj.
Qed.

Lemma c10 : forall calls l d s' p t q f off, let s := session (N := XQ) calls in let df := pdur (getp s p) in let e := EvCram l d in
  between_events s -> no_globals s -> In p (current s) ->
  ptempo (getp s p) = Fin t -> pquant (getp s p) = Fin q -> pscale (getp s p) = Fin f -> pcur (getp s p) = Fin off -> 0 < f ->
  lasting t df -> proper t e -> annotated true e <> None -> xq_leb (Fin (ms t (meant d df) * f)) xq_maxval = true ->
  exec [written e] s = (s', Ok) ->
  pcur (getp s' p) = Fin (off + ms t (meant d df) * f) /\
  exists new, notes_of s' (instance s p) = notes_of s (instance s p) ++ new /\ map times new = map as_num (placed t q off f df e).
Proof.
  intros calls l d s' p t q f off s df e Hb Hg Hp T Q Sc Cu Hf A Hpr An Bd H.
  unfold exec, run_all in H. cbn [each] in H.
  assert (H' : run 1 (written e) s = (s', Ok)).
  { destruct (run 1 (written e) s) as [s1 []]; cbn [seqo] in H; congruence. }
  destruct (written_acts _ _ e s s' (wf_okay _ (session_wf calls)) H') as [_ [K V]]. specialize (V p Hp).
  destruct (annotated true e) as [b'|] eqn:E; [|contradiction]. apply leb_maxq in Bd.
  destruct (plays_all t q (s_deref 0) (dur_deref 1) e true b' (view p s) (view p s') off f Hpr E) as (_ & _ & P1 & _ & new & M1 & M2);
    [split; [exact Hb|exact Hg|exact T|exact Q]|exact A|exact Sc|exact Hf|exact Cu|exact Bd|exact V|].
  split; [exact P1|]. exists new. split; [|exact M2].
  cbn [view so_notes] in M1. rewrite (k_org _ _ K p) in M1. exact M1.
Qed.

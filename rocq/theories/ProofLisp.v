(** Attributes accept exactly what they should (C47). *)
From Coq Require Import ZArith QArith Qround Qcanon Lqa List String Ascii Bool Lia.
From Verif Require Import Base Num ModelPitch ModelDuration ModelInstruments ModelTypes ModelLisp SpecLisp ProofNum ProofTicks.
Import ListNotations.
Local Open Scope string_scope.
Local Open Scope list_scope.

(* ---------------------------- evaluating a call ---------------------------- *)

Definition plain (a : argument) : @lform XQ :=
  match a with ANumber q => LNum (Fin q) | AString s => LStr s | ASymbol s => LSym s | AList l => LList l end.
Fixpoint evals (l : list (@lform XQ)) : res (list lform) :=
  match l with
  | [] => ROk []
  | x :: t => rbind (eval x) (fun v => rbind (evals t) (fun vs => ROk (v :: vs)))
  end.
Lemma evals_written : forall args, evals (map written args) = ROk (map plain args).
Proof. induction args as [|a args IH]; [reflexivity|]. cbn [map evals]. rewrite IH. destruct a; reflexivity. Qed.
Lemma eval_call : forall name args, String.eqb name "quote" = false -> bound (N := XQ) name = true ->
  eval (LList (LSym name :: map written args)) =
  match call_builtin name (map plain args) with Some r => r | None => RErr "unreachable: unbound function" end.
Proof.
  intros name args Q B. change (eval (LList (LSym name :: map written args))) with
    (rbind (eval (LSym name)) (fun o => match o with
          | LQuoteForm => match map written args with [] => RPanic "index out of range" | [x] => ROk x | _ => RErr "expected 1 argument to quote" end
          | _ => rbind (evals (map written args)) (fun a => match o with
              | LFun name => match call_builtin name a with Some r => r | None => RErr "unreachable: unbound function" end
              | _ => RErr "value is not an Operator" end) end)).
  rewrite evals_written. cbn [eval]. rewrite Q, B. reflexivity.
Qed.

Definition result_of (mk : @part_update XQ -> @prim XQ) (r : option (res (@part_update XQ))) : res (option prim) :=
  match r with Some r => rmap (fun u => Some (mk u)) r | None => RErr "unreachable: unbound function" end.
Lemma rmap_rmap : forall A B C (f : B -> C) (g : A -> B) (r : res A), rmap f (rmap g r) = rmap (fun x => f (g x)) r.
Proof. destruct r; reflexivity. Qed.
Lemma called : forall name args, String.eqb name "quote" = false -> bound (N := XQ) name = true ->
  defn_fun name (map plain args) = None -> (exists r, attr_fun name (map plain args) = Some r) ->
  eval_update (LSym name :: map written args) = result_of Attr (attr_fun name (map plain args)).
Proof.
  intros name args Q B D [r A]. unfold eval_update. rewrite eval_call by assumption. unfold call_builtin.
  rewrite D, A. cbn [result_of]. rewrite rmap_rmap. reflexivity.
Qed.
Lemma called_bang : forall name bang args, String.eqb bang "quote" = false -> bound (N := XQ) bang = true ->
  defn_fun bang (map plain args) = None -> attr_fun bang (map plain args) = None -> strip_bang bang = Some name ->
  (exists r, attr_fun name (map plain args) = Some r) ->
  eval_update (LSym bang :: map written args) = result_of GAttr (attr_fun name (map plain args)).
Proof.
  intros name bang args Q B D A S [r A']. unfold eval_update. rewrite eval_call by assumption. unfold call_builtin.
  rewrite D, A, S, A'. cbn [result_of]. rewrite rmap_rmap. reflexivity.
Qed.
Lemma names_called : forall name args, In name attribute_names ->
  eval_update (LSym name :: map written args) = result_of Attr (attr_fun name (map plain args)) /\
  eval_update (LSym (name ++ "!")%string :: map written args) = result_of GAttr (attr_fun name (map plain args)).
Proof.
  intros name args H. generalize dependent args. cbn in H.
  repeat (destruct H as [<- |H];
    [intros args; split;
      [apply called; try reflexivity; eexists; reflexivity
      |apply called_bang; try reflexivity; eexists; reflexivity]|]).
  destruct H.
Qed.

(* ---------------------------- number checks ---------------------------- *)

Lemma ltb_spec : forall a b : Qc, @nltb XQ (Fin a) (Fin b) = true <-> (a < b)%Qc.
Proof. intros. apply qc_ltb_lt. Qed.
Lemma ltb_no : forall a b : Qc, @nltb XQ (Fin a) (Fin b) = false <-> (b <= a)%Qc.
Proof. intros. apply qc_ltb_ge. Qed.
Lemma percentage_spec : forall q, 
  (((0 <= q)%Qc /\ (q <= whole 100)%Qc) /\ percentage (N := XQ) (Fin q) = ROk (Fin (q / whole 100)%Qc)) \/
  (~ ((0 <= q)%Qc /\ (q <= whole 100)%Qc) /\ exists e, percentage (N := XQ) (Fin q) = RErr e).
Proof.
  intros q. unfold percentage. change (@n0 XQ) with (Fin 0%Qc). change (@nofZ XQ 100) with (Fin (whole 100)).
  destruct (@nltb XQ (Fin q) (Fin 0%Qc)) eqn:A; [right|].
  - cbn [orb]. apply ltb_spec in A. split; [|eexists; reflexivity]. intros [B _]. exact (Qclt_not_le _ _ A B).
  - apply ltb_no in A. destruct (@nltb XQ (Fin (whole 100)) (Fin q)) eqn:B; cbn [orb]; [right|left].
    + apply ltb_spec in B. split; [|eexists; reflexivity]. intros [_ C]. exact (Qclt_not_le _ _ B C).
    + apply ltb_no in B. split; [split; assumption|]. reflexivity.
Qed.
Lemma non_negative_spec : forall q,
  ((0 <= q)%Qc /\ non_negative_number (N := XQ) (Fin q) = ROk (Fin (q / whole 100)%Qc)) \/
  (~ (0 <= q)%Qc /\ exists e, non_negative_number (N := XQ) (Fin q) = RErr e).
Proof.
  intros q. unfold non_negative_number. change (@n0 XQ) with (Fin 0%Qc). change (@nofZ XQ 100) with (Fin (whole 100)).
  destruct (@nltb XQ (Fin q) (Fin 0%Qc)) eqn:A; [right|left].
  - apply ltb_spec in A. split; [|eexists; reflexivity]. intros B. exact (Qclt_not_le _ _ A B).
  - apply ltb_no in A. split; [assumption|reflexivity].
Qed.
Lemma positive_spec : forall q,
  ((1 <= q)%Qc /\ positive_number (N := XQ) (Fin q) = ROk (Fin q)) \/
  (~ (1 <= q)%Qc /\ exists e, positive_number (N := XQ) (Fin q) = RErr e).
Proof.
  intros q. unfold positive_number. change (@n1 XQ) with (Fin 1%Qc).
  destruct (@nltb XQ (Fin q) (Fin 1%Qc)) eqn:A; [right|left].
  - apply ltb_spec in A. split; [|eexists; reflexivity]. intros B. exact (Qclt_not_le _ _ A B).
  - apply ltb_no in A. split; [assumption|reflexivity].
Qed.

Lemma trunc_whole : forall z, q_trunc (whole z) = z.
Proof.
  intros z. unfold q_trunc, whole. assert (E : (this (Q2Qc (inject_Z z)) == inject_Z z)%Q) by apply this_Q.
  destruct (Qle_bool 0 (Q2Qc (inject_Z z))).
  - rewrite (Qfloor_comp _ _ E). apply Qfloor_Z.
  - assert (E' : (- this (Q2Qc (inject_Z z)) == inject_Z (- z))%Q) by (rewrite E, inject_Z_opp; reflexivity).
    rewrite (Qfloor_comp _ _ E'), Qfloor_Z. lia.
Qed.
Definition int32 (z : Z) : Prop := (- 2 ^ 31 <= z < 2 ^ 31)%Z.
Lemma wrap_in : forall z, int32 (wrap32 z).
Proof. intros. unfold int32, wrap32. pose proof (Z.mod_pos_bound (z + 2147483648) 4294967296). lia. Qed.
Lemma wrap_same : forall z, int32 z -> wrap32 z = z.
Proof. unfold int32, wrap32. intros. rewrite Z.mod_small; lia. Qed.
Lemma whole_inj : forall a b, whole a = whole b -> a = b.
Proof. intros a b H. rewrite <- (trunc_whole a), <- (trunc_whole b), H. reflexivity. Qed.

Lemma integer_check : forall q,
  (exists z, int32 z /\ q = whole z /\ @nneqb XQ (Fin q) (nofZ (@ntrunc32 XQ (Fin q))) = false /\ @ntrunc32 XQ (Fin q) = z) \/
  (~ (exists z, int32 z /\ q = whole z) /\ @nneqb XQ (Fin q) (nofZ (@ntrunc32 XQ (Fin q))) = true).
Proof.
  intros q. change (@ntrunc32 XQ (Fin q)) with (wrap32 (q_trunc q)).
  change (@nneqb XQ (Fin q) (nofZ (wrap32 (q_trunc q)))) with (negb (qc_eqb q (whole (wrap32 (q_trunc q))))).
  destruct (qc_eqb q (whole (wrap32 (q_trunc q)))) eqn:E; [left|right]; cbn [negb].
  - exists (wrap32 (q_trunc q)). split; [apply wrap_in|]. split; [|split; reflexivity].
    apply Qc_is_canon. apply Qeq_bool_iff. exact E.
  - split; [|reflexivity]. intros (z & R & ->). rewrite trunc_whole, wrap_same in E by assumption.
    unfold qc_eqb in E. rewrite (proj2 (Qeq_bool_iff _ _)) in E by reflexivity. discriminate.
Qed.
Lemma integer_spec : forall q,
  (exists z, int32 z /\ q = whole z /\ integer (N := XQ) (Fin q) = ROk z) \/
  (~ (exists z, int32 z /\ q = whole z) /\ exists e, integer (N := XQ) (Fin q) = RErr e).
Proof.
  intros q. unfold integer. destruct (integer_check q) as [(z & R & -> & E & T) | (No & E)]; rewrite E; [left|right].
  - exists z. rewrite T. auto.
  - split; [assumption|eexists; reflexivity].
Qed.
Lemma channel_spec : forall q,
  (exists z, (0 <= z <= 15)%Z /\ q = whole z /\ integer_in_range (N := XQ) (Fin q) 0 15 = ROk z) \/
  (~ (exists z, (0 <= z <= 15)%Z /\ q = whole z) /\ exists e, integer_in_range (N := XQ) (Fin q) 0 15 = RErr e).
Proof.
  intros q. unfold integer_in_range. destruct (integer_check q) as [(z & R & -> & E & T) | (No & E)]; rewrite E; [|right].
  - rewrite T. destruct ((z <? 0) || (z >? 15))%Z eqn:D; [right|left].
    + split; [|eexists; reflexivity]. intros (y & Y & W). apply whole_inj in W. subst y. lia.
    + exists z. split; [lia|auto].
  - split; [|eexists; reflexivity]. intros (z & Z & W). apply No. exists z. split; [unfold int32; lia|assumption].
Qed.
Lemma beats_whole : forall d, (1 <= d)%Qc -> note_length_beats (N := XQ) (Fin d) 0 = Fin (whole 4 / d)%Qc.
Proof.
  intros d D. unfold note_length_beats. change (@ndiv XQ (nofZ 4) (Fin d)) with (if qc_eqb d (Q2Qc 0) then xq_inf (qc_sgn (whole 4)) else Fin (whole 4 / d)%Qc).
  destruct (qc_eqb d (Q2Qc 0)) eqn:E.
  - apply Qeq_bool_iff in E. exfalso. unfold Qcle in D. rewrite E in D. change (1 <= 0)%Q in D. lra.
  - change (@nsub XQ (nofZ 2) (npow2 (wrap32 (- 0)))) with (Fin (Q2Qc 2 - Q2Qc (2 ^ 0))%Qc).
    change (@nmul XQ (Fin (whole 4 / d)%Qc) (Fin (Q2Qc 2 - Q2Qc (2 ^ 0))%Qc)) with (Fin (whole 4 / d * (Q2Qc 2 - Q2Qc (2 ^ 0)))%Qc).
    f_equal. replace (Q2Qc 2 - Q2Qc (2 ^ 0))%Qc with 1%Qc by (apply Qc_is_canon; reflexivity). apply Qcmult_1_r.
Qed.

(* ---------------------------- the table ---------------------------- *)

Lemma accepted : forall name args u, accepts name args u -> attr_fun name (map plain args) = Some (ROk u).
Proof.
  intros name args u A. destruct A as [name mk q I L H | name q I L | name mk q I L | name mk z I R | z R | | | d q D Q | m I]; cbn [map plain].
  - assert (E : percentage (N := XQ) (Fin q) = ROk (Fin (q / whole 100)%Qc)) by (destruct (percentage_spec q) as [[_ E] | [N _]]; [exact E|exfalso; auto]).
    cbn in I. repeat (destruct I as [[= <- <-] | I]; [cbn; rewrite E; reflexivity|]). destruct I.
  - assert (E : non_negative_number (N := XQ) (Fin q) = ROk (Fin (q / whole 100)%Qc)) by (destruct (non_negative_spec q) as [[_ E] | [N _]]; [exact E|exfalso; auto]).
    cbn in I. repeat (destruct I as [<- | I]; [cbn; rewrite E; reflexivity|]). destruct I.
  - assert (E : positive_number (N := XQ) (Fin q) = ROk (Fin q)) by (destruct (positive_spec q) as [[_ E] | [N _]]; [exact E|exfalso; auto]).
    cbn in I. repeat (destruct I as [[= <- <-] | I]; [cbn; rewrite E; reflexivity|]). destruct I.
  - assert (E : integer (N := XQ) (Fin (whole z)) = ROk z).
    { destruct (integer_spec (whole z)) as [(y & _ & W & E) | [N _]]; [apply whole_inj in W; subst; exact E|exfalso; apply N; exists z; auto]. }
    cbn in I. repeat (destruct I as [[= <- <-] | I]; [cbn -[integer]; rewrite E; reflexivity|]). destruct I.
  - assert (E : integer_in_range (N := XQ) (Fin (whole z)) 0 15 = ROk z).
    { destruct (channel_spec (whole z)) as [(y & _ & W & E) | [N _]]; [apply whole_inj in W; subst; exact E|exfalso; apply N; exists z; auto]. }
    cbn -[integer_in_range]. rewrite E. reflexivity.
  - reflexivity.
  - reflexivity.
  - assert (E : positive_number (N := XQ) (Fin q) = ROk (Fin q)) by (destruct (positive_spec q) as [[_ E] | [N _]]; [exact E|exfalso; auto]).
    assert (E' : positive_number (N := XQ) (Fin d) = ROk (Fin d)) by (destruct (positive_spec d) as [[_ E'] | [N _]]; [exact E'|exfalso; auto]).
    cbn -[positive_number note_length_beats nmul]. rewrite E, E'. cbn [rbind]. rewrite beats_whole by assumption. reflexivity.
  - cbn in I. repeat (destruct I as [<- | I]; [reflexivity|]). destruct I.
Qed.

Definition answers (name : string) (args : list argument) (r : res (@part_update XQ)) : Prop :=
  (exists u, r = ROk u /\ accepts name args u) \/ exists e, r = RErr e.
Lemma bad : forall name args e, answers name args (RErr e).
Proof. right. eexists. reflexivity. Qed.
Lemma decided : forall name args, In name attribute_names -> (takes_lengths name -> forall a, In a args -> ~ is_string a) ->
  exists r, attr_fun name (map plain args) = Some r /\ answers name args r.
Proof.
  intros name args H NS. unfold attribute_names in H. repeat (apply in_app_or in H; destruct H as [H|H]).
  - cbn in H.
    assert (P : forall name mk, In (name, mk) percents ->
      answers name args (match map plain args with [LNum v] => rmap mk (percentage v) | _ => sig_err end)).
    { intros n mk I. destruct args as [|[q|s|s|l] [|b t]]; try apply bad.
      cbn [map plain]. destruct (percentage_spec q) as [[[L U] ->] | [_ [e ->]]]; [|apply bad].
      left. eexists. split; [reflexivity|]. constructor; assumption. }
    repeat (destruct H as [<- |H]; [eexists; split; [reflexivity|apply P; cbn; tauto]|]). destruct H.
  - cbn in H.
    assert (P : forall name, In name quants ->
      answers name args (match map plain args with [LNum v] => rmap PQuant (non_negative_number v) | _ => sig_err end)).
    { intros n I. destruct args as [|[q|s|s|l] [|b t]]; try apply bad.
      cbn [map plain]. destruct (non_negative_spec q) as [[L ->] | [_ [e ->]]]; [|apply bad].
      left. eexists. split; [reflexivity|]. constructor; assumption. }
    repeat (destruct H as [<- |H]; [eexists; split; [reflexivity|apply P; cbn; tauto]|]). destruct H.
  - cbn in H.
    assert (P : forall name mk, In (name, mk) quantities ->
      answers name args (match map plain args with [LNum v] => rmap mk (positive_number v) | _ => sig_err end)).
    { intros n mk I. destruct args as [|[q|s|s|l] [|b t]]; try apply bad.
      cbn [map plain]. destruct (positive_spec q) as [[L ->] | [_ [e ->]]]; [|apply bad].
      left. eexists. split; [reflexivity|]. constructor; assumption. }
    destruct H as [<- |H].
    { eexists. split; [reflexivity|]. assert (T : takes_lengths "tempo") by (left; reflexivity). specialize (NS T).
      destruct args as [|[q|s|s|l] [|b t]]; try apply bad.
      - apply (P "tempo" (@PTempo XQ)). cbn; tauto.
      - destruct b as [q'|s|s|l]; try apply bad. destruct t as [|c t]; try apply bad. cbn [map plain].
        destruct (positive_spec q) as [[L ->] | [_ [e ->]]]; [|apply bad].
        destruct (positive_spec q') as [[L' ->] | [_ [e ->]]]; [|apply bad].
        left. eexists. split; [reflexivity|]. rewrite beats_whole by assumption. apply A_tempo; assumption.
      - exfalso. exact (NS (AString s) (or_introl eq_refl) I). }
    repeat (destruct H as [<- |H]; [eexists; split; [reflexivity|]; try (apply P; cbn; tauto)|]); [|destruct H].
    assert (T : takes_lengths "set-note-length") by (right; reflexivity). specialize (NS T).
    destruct args as [|[q|s|s|l] [|b t]]; try apply bad; try (apply (P "set-note-length"); cbn; tauto).
    exfalso. exact (NS (AString s) (or_introl eq_refl) I).
  - cbn in H.
    assert (P : forall name mk, In (name, mk) wholes ->
      answers name args (match map plain args with [LNum v] => rmap mk (integer v) | _ => sig_err end)).
    { intros n mk I. destruct args as [|[q|s|s|l] [|b t]]; try apply bad.
      cbn [map plain]. destruct (integer_spec q) as [(z & R & -> & ->) | [_ [e ->]]]; [|apply bad].
      left. eexists. split; [reflexivity|]. constructor; assumption. }
    destruct H as [<- |H].
    { eexists. split; [reflexivity|]. destruct args as [|[q|s|s|l] [|b t]]; try apply bad.
      - apply (P "octave" (@POctave XQ)). cbn; tauto.
      - cbn [map plain]. destruct (String.eqb_spec s "up") as [-> |]; [left; eexists; split; [reflexivity|constructor]|].
        destruct (String.eqb_spec s "down") as [-> |]; [left; eexists; split; [reflexivity|constructor]|]. apply bad. }
    repeat (destruct H as [<- |H]; [eexists; split; [reflexivity|apply P; cbn; tauto]|]). destruct H.
  - destruct H as [<- |[]]. eexists. split; [reflexivity|].
    destruct args as [|[q|s|s|l] [|b t]]; try apply bad.
    cbn [map plain]. destruct (channel_spec q) as [(z & R & -> & ->) | [_ [e ->]]]; [|apply bad].
    left. eexists. split; [reflexivity|]. constructor; assumption.
  - assert (P : forall name, In name markings -> answers name args (match map plain args with [] => ROk (PDynamic name) | _ => sig_err end)).
    { intros n I. destruct args as [|a t]; [|apply bad]. left. eexists. split; [reflexivity|]. constructor; assumption. }
    cbn in H. repeat (destruct H as [<- |H]; [eexists; split; [reflexivity|apply P; cbn; tauto]|]). destruct H.
Qed.

Theorem attributes_decided : forall name args, In name attribute_names -> (takes_lengths name -> forall a, In a args -> ~ is_string a) ->
  (exists u, accepts name args u /\
     eval_update (LSym name :: map written args) = ROk (Some (Attr u)) /\
     eval_update (LSym (name ++ "!")%string :: map written args) = ROk (Some (GAttr u))) \/
  ((forall u, ~ accepts name args u) /\ exists e,
     eval_update (LSym name :: map written args) = RErr e /\
     eval_update (LSym (name ++ "!")%string :: map written args) = RErr e).
Proof.
  intros name args H NS. destruct (names_called name args H) as [-> ->].
  destruct (decided name args H NS) as (r & E & [(u & -> & A) | (e & ->)]); rewrite E; [left|right].
  - exists u. split; [assumption|]. split; reflexivity.
  - split; [|exists e; split; reflexivity]. intros u A. rewrite (accepted _ _ _ A) in E. discriminate.
Qed.
Theorem accepts_one : forall name args u v, accepts name args u -> accepts name args v -> u = v.
Proof. intros name args u v A B. apply accepted in A, B. rewrite A in B. injection B. auto. Qed.

(* ---------------------------- note lengths as text ---------------------------- *)

Lemma digit_cases : forall (P : Z -> Prop), P 0%Z -> P 1%Z -> P 2%Z -> P 3%Z -> P 4%Z -> P 5%Z -> P 6%Z -> P 7%Z -> P 8%Z -> P 9%Z ->
  forall d, (0 <= d <= 9)%Z -> P d.
Proof.
  intros P P0 P1 P2 P3 P4 P5 P6 P7 P8 P9 d R.
  assert (C : (d = 0 \/ d = 1 \/ d = 2 \/ d = 3 \/ d = 4 \/ d = 5 \/ d = 6 \/ d = 7 \/ d = 8 \/ d = 9)%Z) by lia.
  repeat (destruct C as [-> |C]; [assumption|]). rewrite C. assumption.
Qed.
Lemma digit_is : forall d, (0 <= d <= 9)%Z -> is_digit (digit_char d) = true.
Proof. apply digit_cases; reflexivity. Qed.
Lemma digit_value : forall d, (0 <= d <= 9)%Z -> digit_val (digit_char d) = d.
Proof. apply digit_cases; reflexivity. Qed.
Lemma digit_tie : forall d, (0 <= d <= 9)%Z -> ceq (digit_char d) "~"%char = false.
Proof. apply digit_cases; reflexivity. Qed.

Definition digits_ok (ds : list Z) : Prop := forall d, In d ds -> (0 <= d <= 9)%Z.
Lemma span_all : forall A (f : A -> bool) l r, (forall x, In x l -> f x = true) -> (match r with [] => True | x :: _ => f x = false end) ->
  span f (l ++ r) = (l, r).
Proof.
  induction l as [|x l IH]; intros r H R; cbn [app span].
  - destruct r as [|y r]; cbn [span]; [reflexivity|]. rewrite R. reflexivity.
  - rewrite (H x (or_introl eq_refl)), IH; [reflexivity|intros; apply H; right; assumption|assumption].
Qed.
Lemma digits_in : forall ds x, digits_ok ds -> In x (map digit_char ds) -> is_digit x = true.
Proof. intros ds x O I. apply in_map_iff in I. destruct I as (d & <- & I). apply digit_is, O, I. Qed.
Lemma fold_digits : forall ds a, digits_ok ds ->
  fold_left (fun acc c => 10 * acc + digit_val c)%Z (map digit_char ds) a = (a * 10 ^ Z.of_nat (List.length ds) + positional ds)%Z.
Proof.
  induction ds as [|d ds IH]; intros a O; cbn [map fold_left positional List.length]; [change (10 ^ Z.of_nat 0)%Z with 1%Z; lia|].
  rewrite IH by (intros x I; apply O; right; exact I). rewrite digit_value by (apply O; left; reflexivity).
  rewrite Nat2Z.inj_succ, Z.pow_succ_r by lia. ring.
Qed.
Lemma digits_val_ok : forall ds, digits_ok ds -> digits_val (map digit_char ds) = positional ds.
Proof. intros ds O. unfold digits_val. rewrite fold_digits by assumption. lia. Qed.
Lemma positional_app : forall a b, positional (a ++ b) = (positional a * 10 ^ Z.of_nat (List.length b) + positional b)%Z.
Proof.
  induction a as [|d a IH]; intros b; cbn [app positional]; [lia|]. rewrite IH, app_length, Nat2Z.inj_add, Z.pow_add_r by lia. ring.
Qed.
Lemma whole_add : forall a b, (whole a + whole b)%Qc = whole (a + b).
Proof. intros. apply Qc_is_canon. rewrite this_plus. unfold whole. rewrite !this_Q, inject_Z_plus. reflexivity. Qed.
Lemma decimal_ok : forall a b, digits_ok a -> digits_ok b ->
  decimal_val (N := XQ) (map digit_char a) (map digit_char b) =
  Fin (whole (positional a) + whole (positional b) / whole (10 ^ Z.of_nat (List.length b)))%Qc.
Proof.
  intros a b A B. destruct b as [|x b].
  - cbn [map decimal_val positional List.length]. rewrite digits_val_ok by assumption. change (@nofZ XQ (positional a)) with (Fin (whole (positional a))). f_equal.
    apply Qc_is_canon. rewrite this_plus, this_div. change (this (whole 0)) with 0%Q. change (this (whole (10 ^ Z.of_nat 0))) with 1%Q. field.
  - set (ds := x :: b) in *. assert (E : decimal_val (N := XQ) (map digit_char a) (map digit_char ds) =
      nlit (digits_val (map digit_char a ++ map digit_char ds)) (Pos.pow 10 (Pos.of_nat (List.length (map digit_char ds))))) by reflexivity.
    rewrite E. rewrite <- map_app, digits_val_ok by (intros d I; apply in_app_or in I; destruct I; auto).
    rewrite map_length. unfold nlit.
    assert (P : Z.pos (Pos.pow 10 (Pos.of_nat (List.length ds))) = (10 ^ Z.of_nat (List.length ds))%Z).
    { rewrite Pos2Z.inj_pow. f_equal. rewrite <- positive_nat_Z, Nat2Pos.id by (unfold ds; discriminate). reflexivity. }
    rewrite P. set (n := (10 ^ Z.of_nat (List.length ds))%Z) in *. assert (Np : (0 < n)%Z) by (apply Z.pow_pos_nonneg; lia).
    rewrite positional_app. fold n.
    change (@ndiv XQ (nofZ (positional a * n + positional ds)) (nofZ n)) with
      (if qc_eqb (whole n) (Q2Qc 0) then xq_inf (qc_sgn (whole (positional a * n + positional ds))) else Fin (whole (positional a * n + positional ds) / whole n)%Qc).
    assert (Nz : ~ (inject_Z n == 0)%Q) by (unfold Qeq; cbn; lia).
    replace (qc_eqb (whole n) (Q2Qc 0)) with false.
    2:{ symmetry. apply qc_eqb_neq. intros F. apply (f_equal this) in F. apply Nz.
        rewrite <- (this_Q (inject_Z n)). fold (whole n). rewrite F. reflexivity. }
    f_equal. apply Qc_is_canon. rewrite this_plus, !this_div. unfold whole. rewrite !this_Q, inject_Z_plus, inject_Z_mult. field. assumption.
Qed.

Lemma length_read : forall w, well_written w ->
  note_length_of_string (N := XQ) (unchars (length_text w)) = ROk (Fin (denominator w), Z.of_nat (dot_count w)).
Proof.
  intros [a b k] (NE & O & K). cbn [whole_digits point_digits dot_count] in *.
  assert (A : digits_ok a) by (intros d I; apply O, in_or_app; auto).
  assert (B : digits_ok b) by (intros d I; apply O, in_or_app; auto).
  unfold note_length_of_string, chars, unchars. rewrite list_ascii_of_string_of_list_ascii.
  unfold length_text. cbn [whole_digits point_digits dot_count].
  match goal with |- context [map digit_char a ++ ?X] => set (tl := X) end.
  assert (S1 : span is_digit (map digit_char a ++ tl) = (map digit_char a, tl)).
  { apply span_all; [intros x I; exact (digits_in a x A I)|]. unfold tl. destruct b; [destruct k; [exact Logic.I|reflexivity]|reflexivity]. }
  assert (D : span (ceq dot) (repeat "."%char k) = (repeat "."%char k, [])).
  { rewrite <- (app_nil_r (repeat "."%char k)) at 1. apply span_all; [|exact I]. intros x I. apply repeat_spec in I. subst. reflexivity. }
  assert (C0 : exists x t, map digit_char a ++ tl = x :: t /\ is_digit x = true).
  { destruct a as [|d a]; [congruence|]. eexists _, _. split; [reflexivity|]. apply digit_is, A. left; reflexivity. }
  destruct C0 as (x & t & E & X). rewrite E in *. cbv iota beta. rewrite X. cbn [negb]. rewrite S1.
  assert (M : match tl with
        | d :: ((x :: _) as t) => if ceq d dot && is_digit x then span is_digit t else ([], tl)
        | _ => ([], tl) end = (map digit_char b, repeat "."%char k)).
  { unfold tl. destruct b as [|d b].
    - cbn [app map]. destruct k as [|[|k]]; reflexivity.
    - cbn [map app]. rewrite (digit_is d) by (apply B; left; reflexivity). change (ceq "." dot) with true. cbn [andb].
      change (digit_char d :: map digit_char b ++ repeat "."%char k) with (map digit_char (d :: b) ++ repeat "."%char k).
      rewrite span_all; [reflexivity|intros y I; exact (digits_in (d :: b) y B I)|destruct k; [exact I|reflexivity]]. }
  rewrite M, D. rewrite decimal_ok by assumption. rewrite repeat_length, wrap_same by (unfold int32; lia). reflexivity.
Qed.

Lemma length_text_tie : forall w, well_written w -> forall c, In c (length_text w) -> ceq c "~"%char = false.
Proof.
  intros [a b k] (NE & O & K) c I. unfold length_text in I. cbn [whole_digits point_digits dot_count] in *.
  apply in_app_or in I. destruct I as [I|I].
  - apply in_map_iff in I. destruct I as (d & <- & I). apply digit_tie, O, in_or_app. auto.
  - apply in_app_or in I. destruct I as [I|I]; [|apply repeat_spec in I; subst; reflexivity].
    destruct b as [|d b]; [destruct I|]. destruct I as [<- |I]; [reflexivity|].
    change (In c (map digit_char (d :: b))) in I. apply in_map_iff in I. destruct I as (e & <- & I). apply digit_tie, O, in_or_app. auto.
Qed.
Lemma split_piece : forall l r cur, (forall c, In c l -> ceq c "~"%char = false) ->
  split_on "~"%char (l ++ "~"%char :: r) cur = (rev cur ++ l) :: split_on "~"%char r [].
Proof.
  induction l as [|c l IH]; intros r cur H; cbn [app split_on].
  - change (ceq "~" "~") with true. cbv iota. rewrite app_nil_r. reflexivity.
  - rewrite (H c (or_introl eq_refl)), IH by (intros; apply H; right; assumption). cbn [rev]. rewrite <- app_assoc. reflexivity.
Qed.
Lemma split_last : forall l cur, (forall c, In c l -> ceq c "~"%char = false) -> split_on "~"%char l cur = [rev cur ++ l].
Proof.
  induction l as [|c l IH]; intros cur H; cbn [split_on]; [rewrite app_nil_r; reflexivity|].
  rewrite (H c (or_introl eq_refl)), IH by (intros; apply H; right; assumption). cbn [rev]. rewrite <- app_assoc. reflexivity.
Qed.
Lemma split_tied : forall ws, ws <> [] -> Forall well_written ws -> split_on "~"%char (tied_text ws) [] = map length_text ws.
Proof.
  induction ws as [|w ws IH]; intros NE F; [congruence|]. inversion F as [|? ? W Ws]; subst. destruct ws as [|v ws].
  - cbn [tied_text map]. rewrite split_last by (apply length_text_tie; assumption). reflexivity.
  - change (tied_text (w :: v :: ws)) with (length_text w ++ "~"%char :: tied_text (v :: ws)).
    rewrite split_piece by (apply length_text_tie; assumption). rewrite IH by (assumption || discriminate). reflexivity.
Qed.
Lemma tied_read : forall ws, ws <> [] -> Forall well_written ws ->
  duration_of_string (N := XQ) (unchars (tied_text ws)) = ROk (Some (map length_meant ws)).
Proof.
  intros ws NE F. unfold duration_of_string, chars. unfold unchars at 2. rewrite list_ascii_of_string_of_list_ascii, split_tied by assumption.
  assert (R : rmapl (fun cs => rmap (fun '(d, k) => CLen d k) (note_length_of_string (N := XQ) (unchars cs))) (map length_text ws) = ROk (map length_meant ws)).
  { clear NE. induction F as [|w ws W Ws IH]; [reflexivity|]. cbn [map rmapl]. rewrite length_read by assumption. cbn [rmap rbind]. rewrite IH. reflexivity. }
  rewrite R. reflexivity.
Qed.
Theorem lengths_read : forall ws, ws <> [] -> Forall well_written ws ->
  eval_update [LSym "set-note-length"; LStr (unchars (tied_text ws))] = ROk (Some (Attr (PDurSet (Some (map length_meant ws))))).
Proof.
  intros ws NE F. change [LSym "set-note-length"; LStr (unchars (tied_text ws))] with (LSym "set-note-length" :: map written [AString (unchars (tied_text ws))]).
  rewrite (proj1 (names_called "set-note-length" [AString (unchars (tied_text ws))] ltac:(cbn; tauto))). cbn -[duration_of_string unchars tied_text length_meant]. rewrite tied_read by assumption. reflexivity.
Qed.

Theorem markings_volumes : map fst documented_volumes = markings /\
  forall m v, In (m, v) documented_volumes -> exists q, dynamic_volume (N := XQ) m = Fin q /\
    (whole (v - 1) < q * whole 100)%Qc /\ (q * whole 100 < whole (v + 1))%Qc.
Proof.
  split; [reflexivity|]. intros m v I. cbn in I.
  repeat (destruct I as [[= <- <-] | I]; [eexists; split; [vm_compute; reflexivity|split; reflexivity]|]). destruct I.
Qed.

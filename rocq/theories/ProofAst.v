(** Every parsed tree converts to updates that say what the tokens say. *)
From Coq Require Import String Ascii ZArith NArith List Bool Lia.
From Verif Require Import Base Num ModelPitch ModelDuration ModelInstruments ModelTypes ModelLisp ModelScan ModelParser
  ModelAst SpecScore SpecVars SpecScan ProofScan SpecParser ProofParser ProofParseText SpecAst.
Import ListNotations.
Local Open Scope list_scope.
Local Open Scope Z_scope.

(** ** UTF-8 *)
Lemma N_byte z : 0 <= z < 256 -> N_of_ascii (byte z) = Z.to_N z.
Proof. intros H. unfold byte. apply N_ascii_embedding. lia. Qed.

Definition ascii7 (c : ascii) : Prop := (N_of_ascii c < 128)%N.
Lemma utf8_rune_ascii r : Forall ascii7 (utf8_rune r) -> 0 <= r < 128 /\ utf8_rune r = [byte r].
Proof.
  unfold rune in *. unfold utf8_rune. intros H.
  assert (D : forall k l, 128 <= k < 256 -> Forall ascii7 (byte k :: l) -> False).
  { intros k l Hk Hf. inversion Hf as [|? ? Ha]; subst. unfold ascii7 in Ha. rewrite N_byte in Ha by lia. lia. }
  destruct ((0 <=? r) && (r <? 128)) eqn:E1; [split; [lia|reflexivity]|exfalso].
  destruct ((128 <=? r) && (r <? 2048)) eqn:E2.
  { apply D in H; [exact H|]. assert (2 <= r / 64 < 32) by (split; [apply Z.div_le_lower_bound|apply Z.div_lt_upper_bound]; lia). lia. }
  destruct ((2048 <=? r) && (r <? 65536) && negb ((55296 <=? r) && (r <? 57344))) eqn:E3.
  { apply D in H; [exact H|]. assert (0 <= r / 4096 < 16) by (split; [apply Z.div_le_lower_bound|apply Z.div_lt_upper_bound]; lia). lia. }
  destruct ((65536 <=? r) && (r <? 1114112)) eqn:E4.
  { apply D in H; [exact H|]. assert (0 <= r / 262144 < 5) by (split; [apply Z.div_le_lower_bound|apply Z.div_lt_upper_bound]; lia). lia. }
  apply D in H; [exact H|lia].
Qed.
Lemma byte_rn c r : 0 <= r < 128 -> byte r = c -> r = rn c.
Proof. intros H <-. unfold rn. rewrite N_byte by lia. lia. Qed.
Lemma utf8_runes : forall (s : list rune) (l : list ascii), Forall ascii7 l -> flat_map utf8_rune s = l -> s = map rn l.
Proof.
  induction s as [|r s IH]; intros l Hl E.
  - cbn in E. now subst.
  - cbn [flat_map] in E. assert (Hr : Forall ascii7 (utf8_rune r)) by (rewrite <- E in Hl; apply Forall_app in Hl; tauto).
    destruct (utf8_rune_ascii r Hr) as [Hb Er]. rewrite Er in E. cbn [app] in E. destruct l as [|c l]; [discriminate|].
    injection E as Ec El. inversion Hl; subst l. cbn [map]. f_equal; [now apply byte_rn|apply IH; [assumption|reflexivity]].
Qed.
Lemma utf8_quote s : utf8 s = "quote"%string -> s = runes "quote".
Proof.
  intros H. unfold utf8 in H. apply (f_equal list_ascii_of_string) in H. rewrite list_ascii_of_string_of_list_ascii in H.
  eapply utf8_runes; [|exact H]. cbn. repeat constructor.
Qed.
Lemma utf8_nonempty c s : utf8 (c :: s) <> ""%string.
Proof.
  unfold utf8. cbn [flat_map]. intros H. apply (f_equal list_ascii_of_string) in H. rewrite list_ascii_of_string_of_list_ascii in H.
  apply app_eq_nil in H as [H _]. unfold utf8_rune in H.
  repeat match type of H with (if ?b then _ else _) = _ => destruct b end; discriminate.
Qed.

Section Proofs.
Context {N : Num}.
Implicit Types ts : list token.

(** ** Evaluating Lisp forms *)
Section LformInd.
Variable P : lform -> Prop.
Hypothesis Hnil : P LNil.
Hypothesis Hquoted : forall f, P f -> P (LQuoted f).
Hypothesis Hsym : forall s, P (LSym s).
Hypothesis Hnum : forall x, P (LNum x).
Hypothesis Hstr : forall s, P (LStr s).
Hypothesis Hupd : forall p, P (LUpd p).
Hypothesis Hpitch : forall p, P (LPitch p).
Hypothesis Hdur : forall c, P (LDur c).
Hypothesis Hlist : forall l, Forall P l -> P (LList l).
Hypothesis Hfun : forall s, P (LFun s).
Hypothesis Hq : P LQuoteForm.
Fixpoint lform_ind' (f : lform) : P f :=
  match f with
  | LNil => Hnil | LQuoted g => Hquoted g (lform_ind' g) | LSym s => Hsym s | LNum x => Hnum x | LStr s => Hstr s
  | LUpd p => Hupd p | LPitch p => Hpitch p | LDur c => Hdur c
  | LList l => Hlist l ((fix go l : Forall P l :=
      match l with [] => Forall_nil _ | x :: t => Forall_cons x (lform_ind' x) (go t) end) l)
  | LFun s => Hfun s | LQuoteForm => Hq
  end.
End LformInd.

Definition safe_label (l : label) : Prop :=
  match l with
  | LChan c => (0 <= c <= 15)%Z
  | LPart names _ => names <> []
  | LTimes n => n <> max_int32
  | LLispPanic => False
  | _ => True
  end.

(** Forms as the parser reads them. *)
Fixpoint syntactic (f : lform) : Prop :=
  match f with
  | LSym s => s <> ""%string
  | LNum _ | LStr _ => True
  | LQuoted g => syntactic g
  | LList l => l <> [] /\ l <> [LSym "quote"] /\ (fix go l := match l with [] => True | x :: t => syntactic x /\ go t end) l
  | _ => False
  end.
(** Values of evaluated forms. *)
Fixpoint value (f : lform) : Prop :=
  match f with
  | LSym s => s <> ""%string
  | LQuoted g => value g
  | LList l => (fix go l := match l with [] => True | x :: t => value x /\ go t end) l
  | LUpd p => prim_all safe_label p
  | _ => True
  end.
Lemma go_Forall (P : lform -> Prop) l :
  (fix go l := match l with [] => True | x :: t => P x /\ go t end) l <-> Forall P l.
Proof. induction l as [|x l IH]; split; intros H; [constructor|exact I| |]. - destruct H. constructor; tauto. - inversion H; subst. tauto. Qed.
Lemma syntactic_list l : syntactic (LList l) <-> l <> [] /\ l <> [LSym "quote"] /\ Forall syntactic l.
Proof. cbn [syntactic]. now rewrite go_Forall. Qed.
Lemma value_list l : value (LList l) <-> Forall value l.
Proof. cbn [value]. now rewrite go_Forall. Qed.
Lemma syntactic_value f : syntactic f -> value f.
Proof.
  induction f using lform_ind'; intros S; try exact I; try (cbn in *; tauto).
  - apply syntactic_list in S as (_ & _ & S). apply value_list. rewrite Forall_forall in *. auto.
Qed.

(** Results that are no crash and whose value, if any, satisfies [P]. *)
Definition fine {A} (P : A -> Prop) (r : res A) : Prop :=
  match r with ROk a => P a | RErr _ => True | RPanic _ => False end.
Lemma fine_bind {A B} (P : A -> Prop) (Q : B -> Prop) r (k : A -> res B) :
  fine P r -> (forall a, P a -> fine Q (k a)) -> fine Q (rbind r k).
Proof. destruct r; cbn; auto. Qed.
Lemma fine_map {A B} (P : A -> Prop) (Q : B -> Prop) r (f : A -> B) :
  fine P r -> (forall a, P a -> Q (f a)) -> fine Q (rmap f r).
Proof. intros H K. eapply fine_bind; [exact H|]. intros a Ha. cbn. auto. Qed.
Lemma fine_mapl {A B} (P : A -> Prop) (Q : B -> Prop) (f : A -> res B) l :
  Forall P l -> (forall a, P a -> fine Q (f a)) -> fine (Forall Q) (rmapl f l).
Proof.
  intros H K. induction H as [|a l Ha Hl IH]; cbn; [constructor|].
  eapply fine_bind; [apply K, Ha|]. intros b Hb. eapply fine_bind; [exact IH|]. intros bs Hbs. cbn. now constructor.
Qed.
Lemma fine_fold {A B} (f : B -> A -> res B) l : (forall b a, fine (fun _ => True) (f b a)) ->
  forall b, fine (fun _ => True) (rfold f l b).
Proof. intros K. induction l as [|a l IH]; intros b; cbn; [exact I|]. eapply fine_bind; [apply K|]. auto. Qed.
Lemma Forall_true {A} (l : list A) : Forall (fun _ => True) l.
Proof. induction l; constructor; auto. Qed.
Notation ok := (fine (fun _ => True)).

Ltac fine_step :=
  match goal with
  | |- fine _ (rmapl _ _) => eapply fine_mapl; [apply Forall_true|intros ? _]
  | |- fine _ (rmap _ _) => eapply fine_map; [|]
  | |- fine _ (rbind _ _) => eapply fine_bind; [|]
  | |- fine _ (if ?b then _ else _) => destruct b eqn:?
  | |- fine _ (let (_, _) := ?b in _) => destruct b eqn:?
  | |- fine _ (ROk _) => cbn [fine]
  | |- fine _ (RErr _) => exact I
  | |- fine _ sig_err => exact I
  | |- True => exact I
  | |- forall _, _ => intro
  end.

Lemma note_length_fine s : ok (note_length_of_string s).
Proof.
  unfold note_length_of_string. destruct (chars s) as [|c cs]; [exact I|]. repeat fine_step.
  destruct l4 as [|a [|b l4]]; exact I.
Qed.
Definition lengths (d : duration) : Prop :=
  exists cs, d = Some cs /\ Forall (fun c => exists den k, c = CLen den k) cs.
Lemma duration_fine s : fine lengths (duration_of_string s).
Proof.
  unfold duration_of_string. eapply fine_bind.
  - eapply (fine_mapl (fun _ => True) (fun c => exists den k, c = CLen den k)); [apply Forall_true|]. intros cs _.
    eapply fine_map; [apply note_length_fine|]. intros [d k] _. now exists d, k.
  - intros cs Hcs. cbn. now exists cs.
Qed.
Lemma beats_fine d : lengths d -> ok (beats_of d).
Proof.
  intros (cs & -> & H). unfold beats_of, dur_beats.
  assert (G : exists b, comp_beats (CDur (Some cs)) = Some b).
  { cbn [comp_beats].
    assert (F : forall acc, exists b, (fix go (l : list component) (acc : num) : option num := match l with
        | [] => Some acc
        | c :: t => match comp_beats c with Some b => go t (nadd acc b) | None => None end end) cs acc = Some b).
    { induction H as [|c cs (den & k & ->) H IH]; intros acc; [now exists acc|]. cbn [comp_beats]. apply IH. }
    apply F. }
  destruct G as (b & ->). exact I.
Qed.

Lemma letter_fine c : ok (new_note_letter c).
Proof. destruct c as [[] [] [] [] [] [] [] []]; exact I. Qed.
Lemma keysig_string_fine s : ok (keysig_of_string s).
Proof.
  apply fine_fold. intros k cs. apply (fine_bind (fun _ => True)); [|intros [l a] _; exact I].
  unfold letter_and_accidentals. destruct cs as [|c [|c' cs]]; try exact I.
  eapply fine_bind; [apply letter_fine|]. intros l _. apply (fine_bind (Forall (fun _ => True))); [|intros a _; exact I].
  eapply fine_mapl; [apply Forall_true|]. intros x _. now destruct x as [[] [] [] [] [] [] [] []].
Qed.
Lemma scale_name_loop_fine fs : forall b, ok (scale_name_loop fs b).
Proof.
  induction fs as [|f fs IH]; intros b; [exact I|]. cbn [scale_name_loop]. destruct f; try exact I.
  destruct (new_accidental s); [destruct b; [exact I|]|]; (eapply fine_map; [apply IH|]; intros [] _; exact I).
Qed.
Lemma scale_forms_fine fs : ok (scale_of_forms fs).
Proof. unfold scale_of_forms. destruct fs as [|[] []]; try exact I. repeat fine_step. Qed.
Lemma chars_nonempty s : s <> ""%string -> chars s <> [].
Proof. destruct s; [congruence|discriminate]. Qed.
Lemma keysig_scale_fine fs : Forall value fs -> ok (keysig_of_scale_name fs).
Proof.
  intros V. unfold keysig_of_scale_name. destruct V as [|f fs Vf Vfs]; [exact I|]. destruct f; try exact I.
  apply chars_nonempty in Vf. destruct (chars s) as [|c [|c' cs]]; [congruence| |exact I].
  eapply fine_bind; [apply letter_fine|]. intros l _. eapply fine_bind; [apply scale_name_loop_fine|]. intros [acs rest] _.
  eapply fine_bind; [apply scale_forms_fine|]. intros; exact I.
Qed.
Lemma keysig_pairs_fine : forall n fs k, (List.length fs <= n)%nat -> Forall value fs -> ok (keysig_pairs fs k).
Proof.
  induction n as [|n IH]; intros fs k Hn V; (destruct fs as [|f1 [|f2 fs]]; [exact I|exact I|]); [cbn in Hn; lia|].
  cbn [keysig_pairs]. destruct f1; try exact I.
  inversion V as [|? ? Vs V']; subst. inversion V' as [|? ? _ V'']; subst. apply chars_nonempty in Vs.
  destruct (chars s) as [|c cs]; [congruence|].
  eapply fine_bind; [apply letter_fine|]. intros l _. apply (fine_bind (Forall (fun _ => True))).
  - unfold pair_accidentals. destruct f2; try exact I. eapply fine_mapl; [apply Forall_true|]. intros x _. destruct x; try exact I. repeat fine_step; exact I.
  - intros a _. apply IH; [cbn in Hn; lia|exact V''].
Qed.
Lemma keysig_list_fine fs : Forall value fs -> ok (keysig_of_list fs).
Proof.
  intros V. unfold keysig_of_list. destruct fs as [|f1 [|f2 fs]]; try exact I.
  destruct f2; try exact I; [now apply keysig_scale_fine|]. unfold keysig_of_accidentals. destruct (Nat.odd _); [exact I|].
  eapply keysig_pairs_fine; [reflexivity|exact V].
Qed.
Lemma mm_fine f : ok (mm_beats f).
Proof.
  unfold mm_beats. destruct f; try exact I.
  - unfold positive_number. destruct (nltb _ _); exact I.
  - eapply fine_bind; [apply duration_fine|apply beats_fine].
Qed.
Lemma positive_fine v : ok (positive_number v).
Proof. unfold positive_number. now destruct (nltb _ _). Qed.
Lemma non_negative_fine v : ok (non_negative_number v).
Proof. unfold non_negative_number. now destruct (nltb _ _). Qed.
Lemma integer_fine v : ok (integer v).
Proof. unfold integer. now destruct (nneqb _ _). Qed.
Lemma percentage_fine v : ok (percentage v).
Proof. unfold percentage. now destruct (_ || _). Qed.
Lemma range_fine v lo hi : fine (fun z => lo <= z <= hi) (integer_in_range v lo hi).
Proof. unfold integer_in_range. destruct (nneqb _ _); [exact I|]. destruct (_ || _) eqn:E; [exact I|]. cbn. lia. Qed.

(** Updates of attributes the score accepts. *)
Definition safe_part_update (u : part_update) : Prop := pu_all safe_label u.
Lemma safe_attr u : safe_part_update u -> prim_all safe_label (Attr u) /\ prim_all safe_label (GAttr u).
Proof. unfold safe_part_update. destruct u; cbn; tauto. Qed.

Lemma attr_fine name args r : Forall value args -> attr_fun name args = Some r -> fine safe_part_update r.
Proof.
  intros V. unfold attr_fun.
  assert (K : forall (A : Type) (P : A -> Prop) (f : A -> part_update) (x : res A),
    fine P x -> (forall a, P a -> safe_part_update (f a)) -> fine safe_part_update (rmap f x)).
  { intros. eapply fine_map; eassumption. }
  repeat (match goal with |- (if ?b then _ else _) = _ -> _ => destruct b eqn:? end;
    [intros H; injection H as <-|]); [..|discriminate].
  all: repeat match goal with
       | |- fine _ (match ?l with [] => _ | _ => _ end) => is_var l; destruct l
       | |- fine _ (match ?f with LNil => _ | _ => _ end) => is_var f; destruct f
       end; try exact I.
  all: try (eapply K; [first [apply positive_fine|apply non_negative_fine|apply integer_fine|apply percentage_fine|apply range_fine
             |apply keysig_string_fine|apply duration_fine]|]; intros; first [exact I|assumption]).
  - destruct (String.eqb s "up"); [exact I|]. destruct (String.eqb s "down"); exact I.
  - repeat (eapply fine_bind; [apply positive_fine|]; intros). exact I.
  - eapply fine_bind; [apply duration_fine|]. intros d Hd. eapply fine_bind; [apply positive_fine|]. intros b _.
    eapply fine_bind; [now apply beats_fine|]. intros; exact I.
  - eapply fine_bind; [apply mm_fine|]. intros. eapply fine_bind; [apply mm_fine|]. intros; exact I.
  - eapply K; [apply keysig_list_fine|intros; exact I]. inversion V as [|? ? Vl]; subst. now apply value_list.
Qed.

(** Values other than the special form. *)
Definition plain_value (f : lform) : Prop := value f /\ f <> LQuoteForm.
Lemma pitch_fine l : ok (pitch_of_list l).
Proof.
  unfold pitch_of_list. destruct l as [|[] t]; try exact I. destruct (chars s) as [|c [|]]; try exact I.
  eapply fine_bind; [apply letter_fine|]. intros l _. destruct t; [exact I|].
  apply (fine_bind (Forall (fun _ => True))); [|intros; exact I]. eapply fine_mapl; [apply Forall_true|].
  intros f _. destruct f; try exact I. now destruct (new_accidental s0).
Qed.
Lemma defn_fine name args r : Forall value args -> defn_fun name args = Some r -> fine plain_value r.
Proof.
  intros V. unfold defn_fun.
  assert (K : forall (A : Type) (P : A -> Prop) (f : A -> lform) (x : res A),
    fine P x -> (forall a, plain_value (f a)) -> fine plain_value (rmap f x)).
  { intros. eapply fine_map; [eassumption|]. auto. }
  repeat (match goal with |- (if ?b then _ else _) = _ -> _ => destruct b eqn:? end;
    [intros H; injection H as <-|]); [..|discriminate].
  - split; [now apply value_list|discriminate].
  - destruct args as [|[] [|]]; try exact I. eapply K; [apply positive_fine|]. intros; split; [exact I|discriminate].
  - destruct args as [|[] [|]]; try exact I.
    + eapply K; [apply positive_fine|]. intros; split; [exact I|discriminate].
    + eapply K; [apply note_length_fine|]. intros []; split; [exact I|discriminate].
  - apply (fine_bind (Forall (fun _ => True))); [|intros; split; [exact I|discriminate]].
    eapply fine_mapl; [apply Forall_true|]. intros f _. now destruct f.
  - destruct args as [|[] [|]]; try exact I. eapply K; [apply integer_fine|]. intros; split; [exact I|discriminate].
  - destruct args as [|[] [|]]; try exact I. eapply K; [apply pitch_fine|]. intros; split; [exact I|discriminate].
  - destruct args as [|[] [|[] [|]]]; try exact I; split; (exact I || discriminate).
  - destruct args as [|[] [|]]; try exact I; split; (exact I || discriminate).
  - destruct args as [|[] [|]]; try exact I; destruct p; try exact I; split; (exact I || discriminate).
Qed.
Lemma builtin_fine name args r : Forall value args -> call_builtin name args = Some r -> fine plain_value r.
Proof.
  intros V. unfold call_builtin. destruct (defn_fun name args) as [x|] eqn:D.
  { intros H. injection H as <-. eapply defn_fine; eassumption. }
  destruct (attr_fun name args) as [x|] eqn:A.
  { intros H. injection H as <-. eapply fine_map; [eapply attr_fine; eassumption|]. intros u Hu. split; [now apply safe_attr|discriminate]. }
  destruct (strip_bang name) as [base|]; [|discriminate].
  destruct (attr_fun base args) as [x|] eqn:B; [|discriminate].
  intros H. injection H as <-. eapply fine_map; [eapply attr_fine; eassumption|]. intros u Hu. split; [now apply safe_attr|discriminate].
Qed.

Fixpoint evals (l : list lform) : res (list lform) :=
  match l with
  | [] => ROk []
  | x :: t => rbind (eval x) (fun v => rbind (evals t) (fun vs => ROk (v :: vs)))
  end.
Lemma eval_list op rest : eval (LList (op :: rest)) =
  rbind (eval op) (fun o =>
  match o with
  | LQuoteForm => match rest with
                  | [] => RPanic "index out of range"
                  | [x] => ROk x
                  | _ => RErr "expected 1 argument to quote"
                  end
  | _ => rbind (evals rest) (fun args =>
         match o with
         | LFun name => match call_builtin name args with Some r => r | None => RErr "unreachable: unbound function" end
         | _ => RErr "value is not an Operator"
         end)
  end).
Proof.
  cbn [eval]. destruct (eval op) as [o| |]; [|reflexivity|reflexivity]. cbn [rbind].
  assert (E : forall l, (fix evals (l : list lform) : res (list lform) :=
     match l with [] => ROk [] | x :: t => rbind (eval x) (fun v => rbind (evals t) (fun vs => ROk (v :: vs))) end) l = evals l).
  { induction l as [|x l IH]; [reflexivity|]. cbn [evals]. destruct (eval x); cbn; [now rewrite IH|reflexivity|reflexivity]. }
  destruct o; try reflexivity; now rewrite E.
Qed.
Theorem eval_fine f : syntactic f -> fine (fun v => value v /\ (v = LQuoteForm -> f = LSym "quote")) (eval f).
Proof.
  induction f using lform_ind'; intros S; try (exact (False_ind _ S)); try (cbn; split; [exact I|discriminate]).
  - cbn. split; [now apply syntactic_value|]. intros ->. destruct S.
  - cbn [eval]. destruct (String.eqb_spec s "quote"); [subst; cbn; now split|]. destruct (bound s); [|exact I]. cbn. split; [exact I|discriminate].
  - rename H into IHl. apply syntactic_list in S as (S1 & S2 & S3). destruct l as [|op rest]; [congruence|].
    rewrite eval_list. inversion IHl as [|? ? IHop IHrest]; subst. inversion S3 as [|? ? Sop Srest]; subst.
    eapply fine_bind; [apply IHop, Sop|]. intros o (Vo & Qo).
    assert (Q : o = LQuoteForm \/ o <> LQuoteForm) by (destruct o; (now left) || (right; discriminate)).
    destruct Q as [->|Q].
    + destruct rest as [|x [|]]; [|cbn|exact I].
      * exfalso. apply S2. now rewrite (Qo eq_refl).
      * inversion Srest; subst. split; [now apply syntactic_value|]. intros ->. now destruct (H1).
    + assert (G : fine (fun v => value v /\ (v = LQuoteForm -> LList (op :: rest) = LSym "quote"))
        (rbind (evals rest) (fun args => match o with
         | LFun name => match call_builtin name args with Some r => r | None => RErr "unreachable: unbound function" end
         | _ => RErr "value is not an Operator" end))).
      { apply (fine_bind (Forall value)).
        - clear S1 S2 S3. induction rest as [|x rest IH]; [constructor|]. inversion IHrest; subst. inversion Srest; subst. cbn [evals].
          inversion IHl as [|? ? ? IHl']; subst.
          eapply fine_bind; [eauto|]. intros v (Vv & _). apply (fine_bind (Forall value)).
          + apply IH; try assumption. constructor; [assumption|]. now inversion IHl'.
          + intros vs Hvs. cbn. now constructor.
        - intros args Va. destruct o; try exact I. destruct (call_builtin name args) as [x|] eqn:B; [|exact I].
          pose proof (builtin_fine _ _ _ Va B) as F. destruct x; cbn in *; auto. destruct F. split; [assumption|]. congruence. }
      destruct o; try exact G. congruence.
Qed.
End Proofs.

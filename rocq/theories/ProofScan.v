(** Proofs about the scanner: it accepts exactly the well-formed texts. *)
From Coq Require Import ZArith List String Ascii Bool Lia ZifyBool ZifyNat.
From Verif Require Import Base Num ModelScan SpecScan.
Import ListNotations.
Local Open Scope string_scope.
Local Open Scope list_scope.
Local Open Scope Z_scope.

(** ** Character classes: the model's tests are the specification's. *)
Ltac rn_norm := repeat match goal with
  | |- context [rn ?c] => let v := eval vm_compute in (rn c) in change (rn c) with v
  | H : context [rn ?c] |- _ => let v := eval vm_compute in (rn c) in change (rn c) with v in H
  end.
Ltac classes := unfold symbol_char, name_char, follows_note, follows_rest, ends_length, note_letter_r,
  is_digit_r, is_letter_r, atom_char, word_char, after_note, after_rest, after_seconds, after_repeat,
  blank, digit, letter, one_of, among, space, creturn, newline, tab, quote_mark in *;
  cbn [existsb list_ascii_of_string runes map app] in *; rn_norm.

Lemma digit_c : forall r, is_digit_r r = digit r. Proof. reflexivity. Qed.
Lemma symbol_c : forall r, symbol_char r = atom_char r. Proof. intros r. classes. lia. Qed.
Lemma name_c : forall r, name_char r = word_char r. Proof. intros r. classes. lia. Qed.
Lemma note_c : forall r, follows_note r = after_note r. Proof. intros r. classes. lia. Qed.
Lemma rest_c : forall r, follows_rest r = after_rest r. Proof. intros r. classes. lia. Qed.
Lemma length_c : forall r, ends_length r = after_seconds r. Proof. intros r. classes. lia. Qed.
Lemma repeat_c : forall r, one_of ([space; creturn; newline] ++ runes "]}") r = after_repeat r.
Proof. intros r. classes. lia. Qed.
Lemma blank_c : forall r, one_of [space; creturn; newline] r = blank r. Proof. intros r. classes. lia. Qed.

(** ** take_while *)
Lemma tw_spec : forall f l a b, take_while f l = (a, b) ->
  l = a ++ b /\ Forall (fun r => f r = true) a /\ stops f b.
Proof.
  intros f. induction l as [|r t IH]; cbn [take_while]; intros a b H.
  - injection H as <- <-. repeat split; constructor.
  - destruct (f r) eqn:F.
    + destruct (take_while f t) as [a' b']. injection H as <- <-.
      destruct (IH a' b' eq_refl) as [-> [A S]]. split; [reflexivity|]. split; [constructor|]; assumption.
    + injection H as <- <-. split; [reflexivity|]. split; [constructor|exact F].
Qed.
Lemma tw_app : forall f a b, Forall (fun r => f r = true) a -> stops f b -> take_while f (a ++ b) = (a, b).
Proof.
  intros f a b A S. induction A as [|r a F A IH]; cbn [app take_while].
  - destruct b as [|r t]; [reflexivity|]. cbn [stops] in S. cbn [take_while]. rewrite S. reflexivity.
  - rewrite F, IH. reflexivity.
Qed.
Lemma tw_ext : forall f g, (forall r, f r = g r) -> forall l, take_while f l = take_while g l.
Proof. intros f g E. induction l as [|r t IH]; cbn [take_while]; [reflexivity|]. rewrite E, IH. reflexivity. Qed.

Lemma digits_Forall : forall l, digits l <-> Forall (fun r => digit r = true) l.
Proof.
  intros l. unfold digits. split; intros H; eapply Forall_impl; [|exact H| |exact H]; cbn beta; intros r; unfold digit; lia.
Qed.
Lemma stops_ext : forall f g, (forall r, f r = g r) -> forall l, stops f l <-> stops g l.
Proof. intros f g E [|r t]; cbn [stops]; [tauto|]. rewrite E. tauto. Qed.
Lemma at_end : forall f g, (forall r, f r = g r) -> forall l, at_end_or f l = true <-> ends_with g l.
Proof. intros f g E [|r t]; cbn [at_end_or ends_with]; [tauto|]. rewrite E. tauto. Qed.
Lemma peek_digit : forall l, digit (peek l) = true <-> exists r t, l = r :: t /\ digit r = true.
Proof.
  intros [|r t]; cbn [peek].
  - split; [discriminate|]. intros [r [t [E _]]]. discriminate.
  - split; [intros D; exists r, t; auto|]. intros [r' [t' [E D]]]. injection E as -> ->. exact D.
Qed.

Section Proofs.
Context {N : Num}.

(** ** Each lexeme: what the scanner reads is a lexeme of the grammar. *)
Lemma fraction_spec : forall ds l ft fs rest, fraction l = (ft, fs, rest) ->
  l = ft ++ rest /\ decimal ds fs (ds ++ ft) /\ (fs = [] -> ft = [] /\ no_fraction rest) /\
  (fs <> [] -> stops digit rest) .
Proof.
  intros ds l ft fs rest H. unfold fraction in H. destruct l as [|d t].
  - injection H as <- <- <-. split; [reflexivity|]. split; [rewrite app_nil_r; constructor|]. split; [intros _; split; constructor|intros X; elim X; reflexivity].
  - destruct ((d =? rn ".") && is_digit_r (peek t)) eqn:E.
    + apply andb_prop in E. destruct E as [E P]. apply Z.eqb_eq in E. subst d.
      destruct (take_while is_digit_r t) as [fs' r'] eqn:T. injection H as <- <- <-.
      apply tw_spec in T. destruct T as [-> [F S]].
      assert (NE : fs' <> []).
      { intros ->. cbn [app] in P. destruct r' as [|x y]; [discriminate P|]. cbn [stops peek] in *. congruence. }
      split; [reflexivity|]. split; [|split; [|intros _; exact S]].
      * constructor; [|exact NE]. apply digits_Forall. exact F.
      * intros X. contradiction.
    + injection H as <- <- <-. cbn [app]. split; [reflexivity|]. split; [rewrite app_nil_r; constructor|].
      split; [|tauto]. intros _. split; [reflexivity|]. destruct t as [|x u]; [exact I|]. cbn [no_fraction].
      intros [-> X]. cbn [peek] in E. rewrite Z.eqb_refl in E. unfold is_digit_r in E. lia.
Qed.

Definition ok (lisp : bool) (c : rune) (l : list rune) (s : step) : Prop :=
  match s with
  | Skip used rest => c :: l = used ++ rest /\
      ((used = [c] /\ In c [space; tab; newline; creturn]) \/
       (exists body, used = rn "#" :: body /\ ~ In newline body /\ ends_with (Z.eqb newline) rest))
  | Tok k used rest => c :: l = used ++ rest /\ used <> [] /\ lexeme lisp k used rest
  | Bad _ used => exists rest, c :: l = used ++ rest
  end.

Lemma ok_comment : forall lisp l, ok lisp (rn "#") l (comment (rn "#") l).
Proof.
  intros lisp l. unfold comment. destruct (take_while _ l) as [b r] eqn:T. apply tw_spec in T.
  destruct T as [-> [F S]]. cbn [ok]. split; [reflexivity|]. right. exists b. split; [reflexivity|]. split.
  - intros I. rewrite Forall_forall in F. specialize (F _ I). cbn beta in F. rewrite Z.eqb_refl in F. discriminate F.
  - destruct r as [|x t]; [exact I|]. cbn [stops ends_with] in *. rewrite Z.eqb_sym. destruct (x =? newline); [reflexivity|discriminate S].
Qed.

Lemma ok_string : forall l, ok true quote_mark l (string_lit quote_mark l).
Proof.
  intros l. unfold string_lit. destruct (take_while _ l) as [b r] eqn:T. apply tw_spec in T.
  destruct T as [-> [F S]]. destruct r as [|q r]; cbn [ok].
  - exists []. rewrite !app_nil_r. reflexivity.
  - cbn [stops] in S. apply negb_false_iff in S. apply Z.eqb_eq in S. subst q.
    split; [cbn [app]; rewrite <- app_assoc; reflexivity|]. split; [discriminate|]. constructor.
    intros I. rewrite Forall_forall in F. specialize (F _ I). cbn beta in F. rewrite Z.eqb_refl in F. discriminate F.
Qed.

Lemma decimal_text : forall ds fs t, decimal ds fs t -> exists ft, t = ds ++ ft /\ (fs = [] -> ft = []) /\ (fs <> [] -> ft = rn "." :: fs).
Proof.
  intros ds fs t D. destruct D as [ds|ds fs F NE].
  - exists []. rewrite app_nil_r. repeat split; auto. intros X. elim X. reflexivity.
  - exists (rn "." :: fs). repeat split; auto. intros X. contradiction.
Qed.

Lemma stops_after_fraction : forall ft rest, stops digit (ft ++ rest) -> ft = [] -> stops digit rest.
Proof. intros ft rest S ->. exact S. Qed.

Lemma ok_number : forall c l, c = rn "-" \/ digit c = true -> ok true c l (number_lit c l).
Proof.
  intros c l C. unfold number_lit. destruct (take_while is_digit_r l) as [ds l1] eqn:T. apply tw_spec in T.
  destruct T as [-> [F S]]. destruct (fraction l1) as [[ft fs] l2] eqn:FR. cbn [ok].
  assert (ST : forall ds', decimal ds' fs (ds' ++ ft) /\ stops digit l2 /\ (fs = [] -> no_fraction l2) /\ l1 = ft ++ l2).
  { intros ds'. apply (fraction_spec ds') in FR. destruct FR as [E [D [Z1 Z2]]]. repeat split; auto.
    - destruct fs as [|f fs']; [|apply Z2; discriminate]. destruct (Z1 eq_refl) as [-> _]. rewrite E in S. exact S.
    - intros X. apply Z1. exact X. }
  split; [destruct (ST []) as [_ [_ [_ ->]]]; cbn [app]; rewrite <- app_assoc; reflexivity|].
  split; [discriminate|].
  destruct (c =? rn "-") eqn:E.
  - apply Z.eqb_eq in E. subst c. destruct (ST ds) as [D [S2 [NF _]]]. apply lx_negative; auto. apply digits_Forall. exact F.
  - destruct C as [-> |C]; [rewrite Z.eqb_refl in E; discriminate E|].
    destruct (ST (c :: ds)) as [D [S2 [NF _]]]. cbn [app] in D. apply lx_number; auto; [|discriminate].
    apply digits_Forall. constructor; [exact C|exact F].
Qed.

Lemma ok_symbol : forall c l, atom_char c = true -> digit c = false -> ~ In c (runes "-'#") -> ok true c l (symbol_lit c l).
Proof.
  intros c l A D NI. unfold symbol_lit. destruct (take_while symbol_char l) as [b r] eqn:T.
  rewrite (tw_ext _ _ symbol_c) in T. apply tw_spec in T. destruct T as [-> [F S]]. cbn [ok].
  split; [reflexivity|]. split; [discriminate|]. constructor; auto.
Qed.

Lemma repeat_eqb : forall x a, Forall (fun r => (x =? r) = true) a -> a = repeat x (List.length a).
Proof.
  intros x a F. induction F as [|r a E F IH]; [reflexivity|]. cbn [List.length repeat].
  apply Z.eqb_eq in E. subst r. rewrite <- IH. reflexivity.
Qed.

Lemma ok_length : forall c l, digit c = true -> ok false c l (note_length c l).
Proof.
  intros c l C. unfold note_length. destruct (take_while is_digit_r l) as [ds l1] eqn:T. apply tw_spec in T.
  destruct T as [-> [F S]]. destruct (fraction l1) as [[ft fs] l2] eqn:FR.
  apply (fraction_spec (c :: ds)) in FR. destruct FR as [-> [D [Z1 Z2]]].
  assert (DG : digits (c :: ds)) by (apply digits_Forall; constructor; assumption).
  assert (S2 : stops digit l2).
  { destruct fs as [|f fs']; [|apply Z2; discriminate]. destruct (Z1 eq_refl) as [-> _]. exact S. }
  set (number := float_of false (c :: ds) fs) in *. cbn [app] in D.
  assert (DOT : (~ (exists r, l2 = rn "s" :: r /\ ends_with after_seconds r)) -> (~ exists r, l2 = rn "m" :: rn "s" :: r) ->
    ok false c (ds ++ ft ++ l2) (let (dots, l3) := take_while (Z.eqb (rn ".")) l2 in
      Tok (TLength number (wrap32 (Z.of_nat (List.length dots)))) ((c :: ds ++ ft) ++ dots) l3)).
  { intros NS NM. destruct (take_while (Z.eqb (rn ".")) l2) as [dots l3] eqn:T. apply tw_spec in T.
    destruct T as [-> [FD SD]]. cbn [ok]. split; [cbn [app]; rewrite <- !app_assoc; reflexivity|]. split; [discriminate|].
    rewrite (repeat_eqb _ _ FD). rewrite repeat_length.
    eapply lx_length; try eassumption; [discriminate| | |].
    - intros L. destruct dots; [exact S2|discriminate L].
    - intros FS L. destruct (Z1 FS) as [_ NF]. destruct dots as [|x [|]]; try discriminate L.
      inversion FD as [|? ? X FD2 X2]; subst. apply Z.eqb_eq in X. subst x. cbn [app] in NF.
      destruct l3 as [|y z]; [exact I|]. cbn [stops no_fraction] in *. destruct (digit y) eqn:DY; [|reflexivity].
      exfalso. apply NF. split; [reflexivity|]. unfold digit in DY. lia.
    - intros L. destruct dots; [|discriminate L]. cbn [app] in *. split; assumption. }
  destruct l2 as [|s t].
  - apply DOT; intros [r E]; [destruct E as [E _]|]; discriminate E.
  - destruct ((s =? rn "s") && (ends_length (peek t) || match t with [] => true | _ => false end)) eqn:E.
    + apply andb_prop in E. destruct E as [E E2]. apply Z.eqb_eq in E. subst s. cbn [ok].
      split; [cbn [app]; rewrite <- !app_assoc; reflexivity|]. split; [discriminate|].
      eapply lx_seconds; try eassumption; [discriminate|]. destruct t as [|x y]; [exact I|].
      cbn [ends_with peek] in *. rewrite orb_false_r in E2. rewrite <- length_c. exact E2.
    + assert (NS : ~ (exists r, s :: t = rn "s" :: r /\ ends_with after_seconds r)).
      { intros [r [X W]]. injection X as -> ->. rewrite Z.eqb_refl in E. cbn [andb] in E.
        apply orb_false_iff in E. destruct E as [E1 E2]. destruct r as [|x y]; [discriminate E2|].
        cbn [peek ends_with] in *. rewrite length_c in E1. congruence. }
      destruct t as [|s' t'].
      * apply DOT; [exact NS|]. intros [r X]. discriminate X.
      * destruct ((s =? rn "m") && (s' =? rn "s")) eqn:M.
        -- apply andb_prop in M. destruct M as [M1 M2]. apply Z.eqb_eq in M1. apply Z.eqb_eq in M2. subst s s'. cbn [ok].
           split; [cbn [app]; rewrite <- !app_assoc; reflexivity|]. split; [discriminate|].
           eapply lx_ms; try eassumption; discriminate.
        -- apply DOT; [exact NS|]. intros [r X]. injection X as -> -> _. rewrite !Z.eqb_refl in M. discriminate M.
Qed.

Lemma forall_digit_ne : forall l ds rest, take_while is_digit_r l = (ds, rest) -> is_digit_r (peek l) = true -> ds <> [].
Proof.
  intros [|r t] ds rest T P; cbn [peek take_while] in *; [discriminate P|]. rewrite P in T.
  destruct (take_while is_digit_r t). injection T as <- _. discriminate.
Qed.

(** The loop over repetition ranges, with enough fuel. *)
Lemma ok_repetitions : forall fuel done acc l, (List.length l < fuel)%nat ->
  match repetitions fuel done acc l with
  | Skip _ _ => False
  | Tok k used rest => exists t rs b, used = done ++ t /\ l = t ++ rest /\ k = TReps (acc ++ rs) /\ ranges_text rs t b /\
      stops digit rest /\ stops (Z.eqb (rn ",")) rest /\ (b = false -> stops (Z.eqb (rn "-")) rest)
  | Bad _ used => exists t rest, used = done ++ t /\ l = t ++ rest
  end.
Proof.
  induction fuel as [|f IH]; intros done acc l L; [lia|]. cbn [repetitions].
  destruct (is_digit_r (peek l)) eqn:P; cbn [negb]; [|exists [], l; rewrite app_nil_r; split; reflexivity].
  destruct (take_while is_digit_r l) as [ds l1] eqn:T. pose proof (forall_digit_ne _ _ _ T P) as NE.
  apply tw_spec in T. destruct T as [-> [F S]]. apply digits_Forall in F.
  assert (LD : (1 <= List.length ds)%nat) by (destruct ds; [contradiction|cbn; lia]).
  assert (FIN : forall t r b l', ds ++ l1 = t ++ l' -> (List.length l' < f)%nat -> range_text r t b ->
     stops digit l' -> (b = false -> stops (Z.eqb (rn "-")) l') ->
     match match l' with
        | x :: t' => if x =? rn "," then repetitions f ((done ++ t) ++ [x]) (acc ++ [r]) t'
                    else Tok (TReps (acc ++ [r])) (done ++ t) l'
        | [] => Tok (TReps (acc ++ [r])) (done ++ t) l'
        end with
  | Skip _ _ => False
  | Tok k used rest => exists t rs b, used = done ++ t /\ ds ++ l1 = t ++ rest /\ k = TReps (acc ++ rs) /\ ranges_text rs t b /\
      stops digit rest /\ stops (Z.eqb (rn ",")) rest /\ (b = false -> stops (Z.eqb (rn "-")) rest)
  | Bad _ used => exists t rest, used = done ++ t /\ ds ++ l1 = t ++ rest
  end).
  { intros t r b l' E LL R SD SH.
    assert (END : stops (Z.eqb (rn ",")) l' -> exists t0 rs b0, done ++ t = done ++ t0 /\ ds ++ l1 = t0 ++ l' /\ TReps (acc ++ [r]) = TReps (acc ++ rs) /\
       ranges_text rs t0 b0 /\ stops digit l' /\ stops (Z.eqb (rn ",")) l' /\ (b0 = false -> stops (Z.eqb (rn "-")) l')).
    { intros SC. exists t, [r], b. repeat split; auto. constructor. exact R. }
    destruct l' as [|x t']; [apply END; exact I|].
    destruct (x =? rn ",") eqn:X.
    - apply Z.eqb_eq in X. subst x. cbn [List.length] in LL.
      specialize (IH ((done ++ t) ++ [rn ","]) (acc ++ [r]) t' ltac:(lia)).
      destruct (repetitions f ((done ++ t) ++ [rn ","]) (acc ++ [r]) t') as [|k used rest|m used].
      + exact IH.
      + destruct IH as [t1 [rs [b1 [-> [-> [-> [R1 [Q1 [Q2 Q3]]]]]]]]].
        exists (t ++ rn "," :: t1), (r :: rs), b1. rewrite E, <- !app_assoc. repeat split; auto.
        econstructor; eassumption.
      + destruct IH as [t1 [rest [-> ->]]]. exists (t ++ rn "," :: t1), rest. rewrite E, <- !app_assoc. split; reflexivity.
    - apply END. cbn [stops]. rewrite Z.eqb_sym. exact X. }
  rewrite app_length in L.
  destruct l1 as [|x t].
  - apply (FIN ds _ false []); [reflexivity|cbn; lia|constructor; assumption|exact I|intros; exact I].
  - destruct (x =? rn "-") eqn:X.
    + apply Z.eqb_eq in X. subst x. destruct (is_digit_r (peek t)) eqn:P2; cbn [negb].
      * destruct (take_while is_digit_r t) as [ds' l2] eqn:T2. pose proof (forall_digit_ne _ _ _ T2 P2) as NE2.
        apply tw_spec in T2. destruct T2 as [-> [F2 S2]]. apply digits_Forall in F2.
        cbn [List.length] in L. rewrite app_length in L.
        apply (FIN (ds ++ [rn "-"] ++ ds') _ true l2); [rewrite <- !app_assoc; reflexivity|lia|constructor; assumption|exact S2|discriminate].
      * exists (ds ++ [rn "-"]), t. rewrite <- !app_assoc. split; reflexivity.
    + apply (FIN ds _ false (x :: t)); [reflexivity|cbn [List.length] in *; lia|constructor; assumption|exact S|].
      intros _. cbn [stops]. rewrite Z.eqb_sym. exact X.
Qed.

Lemma ok_repeat : forall l, ok false (rn "*") l (repeat_mark (rn "*") l).
Proof.
  intros l. unfold repeat_mark. destruct (take_while (Z.eqb space) l) as [sp l1] eqn:T. apply tw_spec in T.
  destruct T as [-> [FS SS]]. destruct (is_digit_r (peek l1)) eqn:P; cbn [negb]; [|exists l1; reflexivity].
  destruct (take_while is_digit_r l1) as [ds l2] eqn:T. pose proof (forall_digit_ne _ _ _ T P) as NE.
  apply tw_spec in T. destruct T as [-> [F S]]. destruct (at_end_or _ l2) eqn:A; cbn [ok].
  - split; [cbn [app]; rewrite <- app_assoc; reflexivity|]. split; [discriminate|].
    rewrite (repeat_eqb _ _ FS). constructor; [apply digits_Forall; exact F|exact NE|].
    apply (at_end _ _ repeat_c) in A. exact A.
  - exists l2. cbn [app]. rewrite <- app_assoc. reflexivity.
Qed.

Lemma ok_octave : forall l, at_end_or is_digit_r l = true -> ok false (rn "o") l (octave_set (rn "o") l).
Proof.
  intros l E. unfold octave_set. destruct (take_while is_digit_r l) as [ds l1] eqn:T.
  assert (NE : ds = [] -> l1 = []).
  { intros ->. destruct l as [|r t]; cbn [at_end_or take_while] in *; [injection T as <-; reflexivity|].
    rewrite E in T. destruct (take_while is_digit_r t). discriminate T. }
  apply tw_spec in T. destruct T as [-> [F S]]. destruct (at_end_or _ l1) eqn:A; cbn [ok].
  - split; [reflexivity|]. split; [discriminate|]. constructor; [apply digits_Forall; exact F|exact NE|].
    apply (at_end _ _ blank_c) in A. exact A.
  - exists l1. reflexivity.
Qed.

Lemma ok_voice : forall l, is_digit_r (peek l) = true -> ok false (rn "V") l (voice_marker (rn "V") l).
Proof.
  intros l P. unfold voice_marker. destruct (take_while is_digit_r l) as [ds l1] eqn:T.
  pose proof (forall_digit_ne _ _ _ T P) as NE. apply tw_spec in T. destruct T as [-> [F S]].
  destruct l1 as [|x t]; [exists []; rewrite !app_nil_r; reflexivity|].
  destruct (x =? rn ":") eqn:X; cbn [ok]; [|exists (x :: t); reflexivity].
  apply Z.eqb_eq in X. subst x. split; [cbn [app]; rewrite <- app_assoc; reflexivity|]. split; [discriminate|].
  constructor; [apply digits_Forall; exact F|exact NE].
Qed.

Lemma ok_alias : forall l, ok false quote_mark l (alias_lit quote_mark l).
Proof.
  intros l. unfold alias_lit. destruct (take_while name_char l) as [b r] eqn:T.
  rewrite (tw_ext _ _ name_c) in T. apply tw_spec in T. destruct T as [-> [F S]].
  destruct r as [|q r]; cbn [ok]; [exists []; rewrite !app_nil_r; reflexivity|].
  split; [cbn [app]; rewrite <- app_assoc; reflexivity|]. split; [discriminate|]. constructor; [exact F|exact S].
Qed.

Lemma tw_word_ne : forall l b r, take_while name_char l = (b, r) -> name_char (peek l) = true -> b <> [].
Proof.
  intros [|x t] b r T P; cbn [peek take_while] in *; [vm_compute in P; discriminate P|]. rewrite P in T.
  destruct (take_while name_char t). injection T as <- _. discriminate.
Qed.

Lemma ok_prefixed : forall k c l, (forall s rest, s <> [] -> Forall (fun r => word_char r = true) s -> stops word_char rest ->
    lexeme false (k s) (c :: s) rest) -> ok false c l (prefixed k c l).
Proof.
  intros k c l LX. unfold prefixed. destruct (name_char (peek l)) eqn:P; cbn [negb]; [|exists l; reflexivity].
  destruct (take_while name_char l) as [b r] eqn:T. pose proof (tw_word_ne _ _ _ T P) as NE.
  rewrite (tw_ext _ _ name_c) in T. apply tw_spec in T. destruct T as [-> [F S]]. cbn [ok].
  split; [reflexivity|]. split; [discriminate|]. apply LX; assumption.
Qed.

Lemma letter_b : forall r, is_letter_r r = true <-> letter r.
Proof. intros r. unfold is_letter_r, letter. lia. Qed.
Lemma letter_word : forall r, letter r -> word_char r = true.
Proof. intros r L. rewrite <- name_c. unfold name_char. apply letter_b in L. rewrite L. reflexivity. Qed.

Lemma ok_letter : forall c l, letter c -> ok false c l (letter_lit c l).
Proof.
  intros c l C. unfold letter_lit. destruct (is_letter_r (peek l)) eqn:L.
  - unfold name_lit. destruct l as [|c' t]; [discriminate L|]. cbn [peek] in L. apply letter_b in L.
    destruct (take_while name_char (c' :: t)) as [b r] eqn:T.
    rewrite (tw_ext _ _ name_c) in T. cbn [take_while] in T. rewrite (letter_word _ L) in T.
    destruct (take_while word_char t) as [b' r'] eqn:T'. injection T as <- <-. apply tw_spec in T'.
    destruct T' as [-> [F S]]. cbn [ok]. split; [reflexivity|]. split; [discriminate|]. constructor; assumption.
  - destruct (note_letter_r c && at_end_or follows_note l) eqn:E1.
    { apply andb_prop in E1. destruct E1 as [E1 E2]. apply (at_end _ _ note_c) in E2. cbn [ok].
      split; [reflexivity|]. split; [discriminate|]. constructor; [unfold note_letter_r in E1; lia|exact E2]. }
    destruct ((c =? rn "r") && at_end_or follows_rest l) eqn:E2.
    { apply andb_prop in E2. destruct E2 as [E3 E2]. apply Z.eqb_eq in E3. subst c. apply (at_end _ _ rest_c) in E2. cbn [ok].
      split; [reflexivity|]. split; [discriminate|]. apply lx_rest. exact E2. }
    destruct ((c =? rn "o") && at_end_or is_digit_r l) eqn:E3.
    { apply andb_prop in E3. destruct E3 as [E3 E4]. apply Z.eqb_eq in E3. subst c. apply ok_octave. exact E4. }
    destruct ((c =? rn "V") && is_digit_r (peek l)) eqn:E4.
    { apply andb_prop in E4. destruct E4 as [E5 E4]. apply Z.eqb_eq in E5. subst c. apply ok_voice. exact E4. }
    cbn [ok]. exists l. reflexivity.
Qed.

Lemma ok_token : forall lisp c l, ok lisp c l (scan_token lisp c l).
Proof.
  intros lisp c l. unfold scan_token.
  destruct (one_of [space; creturn; newline; tab] c) eqn:W.
  { cbn [ok]. split; [reflexivity|]. left. split; [reflexivity|].
    unfold one_of in W. cbn [existsb] in W. cbn [In].
    rewrite !orb_true_iff, !Z.eqb_eq in W. intuition. }
  destruct (c =? rn "#") eqn:H0; [apply Z.eqb_eq in H0; subst c; apply ok_comment|].
  destruct (c =? rn "(") eqn:H1.
  { apply Z.eqb_eq in H1. subst c. cbn [ok]. split; [reflexivity|]. split; [discriminate|constructor]. }
  destruct (c =? rn ")") eqn:H2.
  { apply Z.eqb_eq in H2. subst c. cbn [ok]. split; [reflexivity|]. split; [discriminate|constructor]. }
  destruct lisp.
  - destruct (c =? rn "'") eqn:H3.
    { apply Z.eqb_eq in H3. subst c. cbn [ok]. split; [reflexivity|]. split; [discriminate|constructor]. }
    destruct (c =? quote_mark) eqn:H4; [apply Z.eqb_eq in H4; subst c; apply ok_string|].
    destruct ((c =? rn "-") || is_digit_r c) eqn:H5.
    { apply ok_number. apply orb_prop in H5. destruct H5 as [H5|H5]; [left; apply Z.eqb_eq; exact H5|right; exact H5]. }
    apply orb_false_iff in H5. destruct H5 as [H5 H6].
    destruct (symbol_char c) eqn:H7; [|cbn [ok]; exists (c :: l); reflexivity].
    apply ok_symbol; [rewrite <- symbol_c; exact H7|exact H6|].
    cbn [runes list_ascii_of_string map In]. apply Z.eqb_neq in H0, H3, H5. intuition congruence.
  - repeat match goal with
    | |- ok false c l (if c =? rn ?x then Tok _ [c] l else _) =>
        destruct (c =? rn x) eqn:?H;
        [match goal with H : (c =? rn x) = true |- _ => apply Z.eqb_eq in H; subst c; cbn [ok]; split; [reflexivity|]; split; [discriminate|constructor; constructor] end|]
    end.
    destruct (c =? rn "'") eqn:Q1.
    { apply Z.eqb_eq in Q1. subst c. pose proof (ok_repetitions (S (List.length l)) [rn "'"] [] l ltac:(lia)) as R.
      destruct (repetitions _ _ _ _) as [|k used rest|m used]; [destruct R| |].
      - destruct R as [t [rs [b [-> [-> [-> [R1 [R2 [R3 R4]]]]]]]]]. cbn [ok app]. split; [reflexivity|]. split; [discriminate|].
        econstructor; eassumption.
      - destruct R as [t [rest [-> ->]]]. cbn [ok]. exists rest. reflexivity. }
    destruct (c =? rn "*") eqn:Q2; [apply Z.eqb_eq in Q2; subst c; apply ok_repeat|].
    destruct (c =? quote_mark) eqn:Q3; [apply Z.eqb_eq in Q3; subst c; apply ok_alias|].
    destruct (c =? rn "%") eqn:Q4; [apply Z.eqb_eq in Q4; subst c; apply ok_prefixed; intros; constructor; assumption|].
    destruct (c =? rn "@") eqn:Q5; [apply Z.eqb_eq in Q5; subst c; apply ok_prefixed; intros; constructor; assumption|].
    destruct (is_digit_r c) eqn:Q6; [apply ok_length; exact Q6|].
    destruct (is_letter_r c) eqn:Q7; [apply ok_letter; apply letter_b; exact Q7|].
    cbn [ok]. exists (c :: l). reflexivity.
Qed.

(** ** Conversely, every lexeme of the grammar is read as such. *)
Ltac off := match goal with
  | |- (if ?b then _ else _) = _ => replace b with false by (symmetry; classes; lia); cbv iota end.
Ltac on := match goal with
  | |- (if ?b then _ else _) = _ => replace b with true by (symmetry; classes; lia); cbv iota end.

Lemma tw_digits : forall ds rest, digits ds -> stops digit rest -> take_while is_digit_r (ds ++ rest) = (ds, rest).
Proof. intros ds rest D S. apply tw_app; [apply digits_Forall; exact D|exact S]. Qed.

Lemma fraction_some : forall fs rest, digits fs -> fs <> [] -> stops digit rest ->
  fraction ((rn "." :: fs) ++ rest) = (rn "." :: fs, fs, rest).
Proof.
  intros fs rest D NE S. cbn [app]. unfold fraction. rewrite Z.eqb_refl.
  replace (is_digit_r (peek (fs ++ rest))) with true.
  - cbn [andb]. rewrite tw_digits by assumption. reflexivity.
  - destruct fs as [|f fs]; [contradiction|]. cbn [app peek]. symmetry. inversion D; subst. unfold is_digit_r. lia.
Qed.
Lemma fraction_none : forall rest, no_fraction rest -> fraction rest = ([], [], rest).
Proof.
  intros [|d t] NF; [reflexivity|]. unfold fraction.
  destruct ((d =? rn ".") && is_digit_r (peek t)) eqn:E; [|reflexivity].
  exfalso. destruct t as [|x u]; [cbn [peek] in E; unfold is_digit_r in E; lia|].
  apply NF. cbn [peek] in E. unfold is_digit_r in E. split; lia.
Qed.

(** Digits, perhaps a fraction, then something that cannot continue them. *)
Lemma decimal_read : forall ds fs t rest, digits ds -> decimal ds fs t -> stops digit rest -> (fs = [] -> no_fraction rest) ->
  exists ft l1, t = ds ++ ft /\ take_while is_digit_r (t ++ rest) = (ds, l1) /\ fraction l1 = (ft, fs, rest).
Proof.
  intros ds fs t rest D DC S NF. destruct DC as [ds|ds fs F NE].
  - exists [], rest. rewrite app_nil_r. split; [reflexivity|]. split; [apply tw_digits; assumption|]. apply fraction_none. auto.
  - exists (rn "." :: fs), ((rn "." :: fs) ++ rest). split; [reflexivity|]. split.
    + rewrite <- app_assoc. apply tw_digits; [exact D|reflexivity].
    + apply fraction_some; assumption.
Qed.
(** The same with the first digit taken off. *)
Lemma decimal_read_first : forall ds fs t rest, digits ds -> ds <> [] -> decimal ds fs t -> stops digit rest -> (fs = [] -> no_fraction rest) ->
  exists c ds' ft l1 , ds = c :: ds' /\ digit c = true /\ t = c :: ds' ++ ft /\ take_while is_digit_r ((ds' ++ ft) ++ rest) = (ds', l1) /\ fraction l1 = (ft, fs, rest).
Proof.
  intros ds fs t rest D NE DC S NF. destruct (decimal_read _ _ _ _ D DC S NF) as [ft [l1 [-> [T F]]]].
  destruct ds as [|c ds']; [contradiction|]. inversion D as [|? ? C D']; subst.
  assert (CD : digit c = true) by (unfold digit; lia).
  exists c, ds', ft, l1. split; [reflexivity|]. split; [exact CD|]. split; [reflexivity|]. split; [|exact F].
  cbn [app take_while] in T. rewrite digit_c, CD in T. rewrite app_assoc in T || idtac.
  destruct (take_while is_digit_r ((ds' ++ ft) ++ rest)) as [x y]. injection T as <- <-. reflexivity.
Qed.

Lemma eqb_repeat : forall x n, Forall (fun r => (x =? r) = true) (repeat x n).
Proof. intros x n. induction n as [|n IH]; cbn [repeat]; constructor; [apply Z.eqb_refl|exact IH]. Qed.

Lemma stops_dots : forall n rest, (n = 0%nat -> stops digit rest) -> stops digit (repeat (rn ".") n ++ rest).
Proof. intros [|n] rest S; cbn [repeat app]; [auto|reflexivity]. Qed.

Lemma dots_no_fraction : forall n rest, stops (Z.eqb (rn ".")) rest -> (n = 1%nat -> stops digit rest) -> no_fraction (repeat (rn ".") n ++ rest).
Proof.
  intros [|[|n]] rest S1 S2; cbn [repeat app].
  - destruct rest as [|d [|x u]]; cbn [no_fraction]; auto. intros [-> _]. cbn [stops] in S1. rewrite Z.eqb_refl in S1. discriminate S1.
  - destruct rest as [|x u]; cbn [no_fraction]; auto. intros [_ X]. specialize (S2 eq_refl). cbn [stops] in S2. unfold digit in S2. lia.
  - cbn [no_fraction]. intros [_ X]. rn_norm. lia.
Qed.

Lemma stops_end : forall f g l, (forall r, f r = true -> g r = false) -> ends_with f l -> stops g l.
Proof. intros f g [|r t] FG E; cbn [ends_with stops] in *; auto. Qed.

Ltac use_token := eexists _, _; split; [reflexivity|]; unfold scan_token.

Lemma letter_token : forall c l, letter c -> scan_token false c l = letter_lit c l.
Proof.
  intros c l C. unfold scan_token. repeat off. on. reflexivity.
Qed.
Lemma digit_token : forall c l, digit c = true -> scan_token false c l = note_length c l.
Proof.
  intros c l C. unfold scan_token. repeat off. on. reflexivity.
Qed.

Lemma range_read : forall r t b, range_text r t b -> forall f done acc l',
  stops digit l' -> (b = false -> stops (Z.eqb (rn "-")) l') ->
  repetitions (S f) done acc (t ++ l') =
  match l' with
  | x :: u => if x =? rn "," then repetitions f ((done ++ t) ++ [x]) (acc ++ [r]) u
              else Tok (TReps (acc ++ [r])) (done ++ t) l'
  | [] => Tok (TReps (acc ++ [r])) (done ++ t) l'
  end.
Proof.
  intros r t b R f done acc l' S H. cbn [repetitions].
  destruct R as [ds D NE|ds ds' D NE D' NE'].
  - replace (is_digit_r (peek (ds ++ l'))) with true.
    2:{ destruct ds as [|d ds]; [contradiction|]. inversion D; subst. cbn [app peek]. symmetry. unfold is_digit_r. lia. }
    cbn [negb]. rewrite tw_digits by assumption. specialize (H eq_refl).
    destruct l' as [|x u]; [reflexivity|]. cbn [stops] in H. rewrite (Z.eqb_sym x (rn "-")), H. reflexivity.
  - rewrite <- app_assoc. cbn [app].
    replace (is_digit_r (peek (ds ++ rn "-" :: ds' ++ l'))) with true.
    2:{ destruct ds as [|d ds]; [contradiction|]. inversion D; subst. cbn [app peek]. symmetry. unfold is_digit_r. lia. }
    cbn [negb]. rewrite tw_digits by (assumption || reflexivity). rewrite Z.eqb_refl.
    replace (is_digit_r (peek (ds' ++ l'))) with true.
    2:{ destruct ds' as [|d ds']; [contradiction|]. inversion D'; subst. cbn [app peek]. symmetry. unfold is_digit_r. lia. }
    cbn [negb]. rewrite tw_digits by assumption. reflexivity.
Qed.

Lemma ranges_read : forall rs t b, ranges_text rs t b -> forall f done acc rest, (List.length t < f)%nat ->
  stops digit rest -> stops (Z.eqb (rn ",")) rest -> (b = false -> stops (Z.eqb (rn "-")) rest) ->
  repetitions f done acc (t ++ rest) = Tok (TReps (acc ++ rs)) (done ++ t) rest.
Proof.
  intros rs t b R. induction R as [r t b R|r t b rs ts b' R R' IH]; intros f done acc rest L S1 S2 S3.
  - destruct f as [|f]; [lia|]. rewrite (range_read _ _ _ R) by assumption. destruct rest as [|x u]; [reflexivity|].
    cbn [stops] in S2. rewrite (Z.eqb_sym x (rn ",")), S2. reflexivity.
  - destruct f as [|f]; [lia|]. rewrite <- app_assoc. cbn [app].
    rewrite (range_read _ _ _ R) by (intros; reflexivity). rewrite Z.eqb_refl.
    rewrite app_length in L. cbn [List.length] in L.
    rewrite IH by (assumption || lia). rewrite <- !app_assoc. reflexivity.
Qed.

Lemma word_stops : forall l, stops word_char l -> stops name_char l.
Proof. intros l. apply (stops_ext word_char name_char). intros r. symmetry. apply name_c. Qed.
Lemma word_all : forall l, Forall (fun r => word_char r = true) l -> Forall (fun r => name_char r = true) l.
Proof. intros l F. eapply Forall_impl; [|exact F]. intros r W. rewrite name_c. exact W. Qed.
Lemma tw_word : forall s rest, Forall (fun r => word_char r = true) s -> stops word_char rest -> take_while name_char (s ++ rest) = (s, rest).
Proof. intros s rest F S. apply tw_app; [apply word_all; exact F|apply word_stops; exact S]. Qed.

Lemma read_prefixed : forall k c s rest, s <> [] -> Forall (fun r => word_char r = true) s -> stops word_char rest ->
  prefixed k c (s ++ rest) = Tok (k s) (c :: s) rest.
Proof.
  intros k c s rest NE F S. unfold prefixed. replace (name_char (peek (s ++ rest))) with true.
  - cbn [negb]. rewrite tw_word by assumption. reflexivity.
  - destruct s as [|x s]; [contradiction|]. inversion F; subst. cbn [app peek]. rewrite name_c. congruence.
Qed.

Theorem lexeme_read : forall lisp k t rest, lexeme lisp k t rest ->
  exists c t', t = c :: t' /\ scan_token lisp c (t' ++ rest) = Tok k t rest.
Proof.
  intros lisp k t rest LX.
  destruct LX as [m rest|m rest|rest|s rest NI|ds fs t rest D NE DC S NF|ds fs t rest D DC S NF
    |c s rest A ND NI F S|c k rest SM|ds fs t dots rest D NE DC S1 S2 S3 S4|ds fs t rest D NE DC E|ds fs t rest D NE DC
    |rs t b rest R S1 S2 S3|n ds rest D NE E|s q rest F Q|s rest NE F S|s rest NE F S|c c' s rest C C' F S
    |c rest C E|rest E|ds rest D NE E|ds rest D NE].
  - use_token. reflexivity.
  - use_token. reflexivity.
  - use_token. reflexivity.
  - use_token. do 4 off. off. on. unfold string_lit.
    rewrite <- app_assoc. rewrite tw_app.
    + cbn [app]. reflexivity.
    + apply Forall_forall. intros r I. destruct (r =? quote_mark) eqn:X; [|reflexivity]. apply Z.eqb_eq in X. subst r. contradiction.
    + reflexivity.
  - destruct (decimal_read_first _ _ _ _ D NE DC S NF) as [c [ds' [ft [l1 [-> [C [-> [T FR]]]]]]]].
    use_token. do 6 off. on. unfold number_lit. rewrite T, FR.
    replace (c =? rn "-") with false by (symmetry; classes; lia). reflexivity.
  - destruct (decimal_read _ _ _ _ D DC S NF) as [ft [l1 [-> [T FR]]]].
    use_token. do 6 off. on. unfold number_lit. rewrite T, FR. reflexivity.
  - use_token. unfold runes in NI; cbn [list_ascii_of_string map In] in NI.
    assert (c <> 45 /\ c <> 39 /\ c <> 35) by (rn_norm; lia).
    do 7 off. on. unfold symbol_lit.
    rewrite (tw_ext _ _ symbol_c), tw_app by assumption. reflexivity.
  - destruct SM; use_token; reflexivity.
  - assert (SD : stops digit (repeat (rn ".") dots ++ rest)) by (apply stops_dots; exact S2).
    assert (NF : fs = [] -> no_fraction (repeat (rn ".") dots ++ rest)) by (intros FS; apply dots_no_fraction; auto).
    destruct (decimal_read_first _ _ _ _ D NE DC SD NF) as [c [ds' [ft [l1 [-> [C [-> [T FR]]]]]]]].
    eexists _, _; split; [reflexivity|]. rewrite digit_token by exact C. unfold note_length.
    rewrite <- (app_assoc (ds' ++ ft)). rewrite T, FR.
    assert (DOT : (let (dots0, l3) := take_while (Z.eqb (rn ".")) (repeat (rn ".") dots ++ rest) in
       Tok (TLength (float_of false (c :: ds') fs) (wrap32 (Z.of_nat (List.length dots0)))) ((c :: ds' ++ ft) ++ dots0) l3) =
       Tok (TLength (float_of false (c :: ds') fs) (wrap32 (Z.of_nat dots))) ((c :: ds' ++ ft) ++ repeat (rn ".") dots) rest).
    { rewrite tw_app by (apply eqb_repeat || assumption). rewrite repeat_length. reflexivity. }
    cbv zeta. destruct dots as [|n].
    + cbn [repeat app] in *. destruct (S4 eq_refl) as [NS NM]. destruct rest as [|x u]; [exact DOT|].
      destruct ((x =? rn "s") && (ends_length (peek u) || match u with [] => true | _ => false end)) eqn:X.
      { exfalso. apply NS. apply andb_prop in X. destruct X as [X1 X2]. apply Z.eqb_eq in X1. subst x. exists u. split; [reflexivity|].
        destruct u as [|y v]; [exact I|]. cbn [ends_with peek] in *. rewrite orb_false_r in X2. rewrite <- length_c. exact X2. }
      destruct u as [|y v]; [exact DOT|].
      destruct ((x =? rn "m") && (y =? rn "s")) eqn:Y; [|exact DOT].
      exfalso. apply NM. apply andb_prop in Y. destruct Y as [Y1 Y2]. apply Z.eqb_eq in Y1. apply Z.eqb_eq in Y2. subst x y. exists v. reflexivity.
    + cbn [repeat app] in *. change (rn "." =? rn "s") with false. change (rn "." =? rn "m") with false. cbn [andb] in *.
      destruct (repeat (rn ".") n ++ rest); exact DOT.
  - assert (SD : stops digit ([rn "s"] ++ rest)) by reflexivity.
    assert (NF : fs = [] -> no_fraction ([rn "s"] ++ rest)) by (intros _; destruct rest; cbn; [exact I|]; intros [X _]; discriminate X).
    destruct (decimal_read_first _ _ _ _ D NE DC SD NF) as [c [ds' [ft [l1 [-> [C [-> [T FR]]]]]]]].
    eexists _, _; split; [reflexivity|]. rewrite digit_token by exact C. unfold note_length.
    rewrite <- (app_assoc (ds' ++ ft)). rewrite T, FR. cbv zeta. cbn [app]. rewrite Z.eqb_refl.
    replace (ends_length (peek rest) || match rest with [] => true | _ => false end) with true; [reflexivity|].
    destruct rest as [|x u]; [rewrite orb_true_r; reflexivity|]. cbn [ends_with peek] in *. rewrite length_c, E. reflexivity.
  - assert (SD : stops digit ([rn "m"; rn "s"] ++ rest)) by reflexivity.
    assert (NF : fs = [] -> no_fraction ([rn "m"; rn "s"] ++ rest)) by (intros _; cbn; intros [X _]; discriminate X).
    destruct (decimal_read_first _ _ _ _ D NE DC SD NF) as [c [ds' [ft [l1 [-> [C [-> [T FR]]]]]]]].
    eexists _, _; split; [reflexivity|]. rewrite digit_token by exact C. unfold note_length.
    rewrite <- (app_assoc (ds' ++ ft)). rewrite T, FR. cbv zeta. cbn [app]. reflexivity.
  - use_token. do 18 off. on. rewrite (ranges_read _ _ _ R) by (assumption || (rewrite app_length; lia)). reflexivity.
  - use_token. do 19 off. on. unfold repeat_mark. rewrite <- app_assoc. rewrite tw_app.
    + replace (is_digit_r (peek (ds ++ rest))) with true.
      2:{ destruct ds as [|d ds]; [contradiction|]. inversion D; subst. cbn [app peek]. symmetry. unfold is_digit_r. lia. }
      cbn [negb]. rewrite tw_digits.
      * replace (at_end_or _ rest) with true; [reflexivity|]. symmetry. apply (at_end _ _ repeat_c). exact E.
      * exact D.
      * eapply stops_end; [|exact E]. intros r. clear. classes. lia.
    + apply eqb_repeat.
    + destruct ds as [|d ds]; [contradiction|]. inversion D; subst. cbn [app stops]. unfold space. lia.
  - use_token. do 20 off. on. unfold alias_lit. rewrite <- app_assoc. rewrite tw_word by assumption. reflexivity.
  - use_token. do 21 off. on. apply read_prefixed; assumption.
  - use_token. do 22 off. on. apply read_prefixed; assumption.
  - eexists _, _; split; [reflexivity|]. rewrite letter_token by exact C. unfold letter_lit. cbn [app peek].
    replace (is_letter_r c') with true by (symmetry; apply letter_b; exact C'). unfold name_lit.
    change (c' :: s ++ rest) with ((c' :: s) ++ rest). rewrite tw_word; [reflexivity| |exact S].
    constructor; [apply letter_word; exact C'|exact F].
  - eexists _, _; split; [reflexivity|]. rewrite letter_token by (unfold letter; lia). unfold letter_lit. cbn [app].
    replace (is_letter_r (peek rest)) with false.
    2:{ destruct rest as [|x u]; [reflexivity|]. cbn [ends_with peek] in *. revert E. clear. classes. lia. }
    replace (at_end_or follows_note rest) with true by (symmetry; apply (at_end _ _ note_c); exact E).
    replace (note_letter_r c) with true by (symmetry; unfold note_letter_r; lia). reflexivity.
  - eexists _, _; split; [reflexivity|]. rewrite letter_token by (unfold letter; rn_norm; lia). unfold letter_lit. cbn [app].
    replace (is_letter_r (peek rest)) with false.
    2:{ destruct rest as [|x u]; [reflexivity|]. cbn [ends_with peek] in *. revert E. clear. classes. lia. }
    replace (at_end_or follows_rest rest) with true by (symmetry; apply (at_end _ _ rest_c); exact E). reflexivity.
  - eexists _, _; split; [reflexivity|]. rewrite letter_token by (unfold letter; rn_norm; lia). unfold letter_lit.
    assert (SD : stops digit rest) by (eapply stops_end; [|exact E]; intros r; clear; classes; lia).
    assert (NL : is_letter_r (peek (ds ++ rest)) = false).
    { destruct ds as [|d ds]; [rewrite (NE eq_refl); reflexivity|]. inversion D; subst. cbn [app peek]. unfold is_letter_r. lia. }
    rewrite NL. change (note_letter_r (rn "o")) with false. change (rn "o" =? rn "r") with false. cbn [andb]. rewrite Z.eqb_refl.
    replace (at_end_or is_digit_r (ds ++ rest)) with true.
    2:{ destruct ds as [|d ds]; [rewrite (NE eq_refl); reflexivity|]. inversion D; subst. cbn [app at_end_or]. symmetry. unfold is_digit_r. lia. }
    cbn [andb]. unfold octave_set. rewrite tw_digits by assumption.
    replace (at_end_or _ rest) with true; [reflexivity|]. symmetry. apply (at_end _ _ blank_c). exact E.
  - eexists _, _; split; [reflexivity|]. rewrite letter_token by (unfold letter; rn_norm; lia). unfold letter_lit.
    destruct ds as [|d ds]; [contradiction|]. pose proof D as D0. inversion D0; subst.
    rewrite <- app_assoc. cbn [peek app].
    replace (is_letter_r d) with false by (symmetry; unfold is_letter_r; lia).
    change (note_letter_r (rn "V")) with false. change (rn "V" =? rn "r") with false. change (rn "V" =? rn "o") with false. cbn [andb]. rewrite Z.eqb_refl.
    replace (is_digit_r d) with true by (symmetry; unfold is_digit_r; lia). cbn [andb].
    unfold voice_marker. change (d :: ds ++ rn ":" :: rest) with ((d :: ds) ++ rn ":" :: rest).
    rewrite tw_digits by (assumption || reflexivity). rewrite Z.eqb_refl. reflexivity.
Qed.

(** ** Positions *)
Lemma last_line_app : forall a b acc, last_line (a ++ b) acc = last_line b (last_line a acc).
Proof.
  induction a as [|r a IH]; intros b acc; cbn [app last_line]; [reflexivity|]. destruct (r =? newline); apply IH.
Qed.

Lemma advance_ok : forall pre used,
  advance_over (line_after pre, column_after pre) used = (line_after (pre ++ used), column_after (pre ++ used)).
Proof.
  intros pre used. revert pre. induction used as [|r t IH]; intros pre.
  - rewrite app_nil_r. reflexivity.
  - unfold advance_over in *. cbn [fold_left].
    replace (pre ++ r :: t) with ((pre ++ [r]) ++ t) by (rewrite <- app_assoc; reflexivity). rewrite <- IH. f_equal.
    unfold advance, line_after, column_after. rewrite filter_app, app_length, last_line_app. cbn [filter last_line fst snd].
    rewrite (Z.eqb_sym newline r). destruct (r =? newline).
    + cbn [List.length]. unfold rune in *; apply f_equal2; lia.
    + rewrite app_length. cbn [List.length]. unfold rune in *; apply f_equal2; lia.
Qed.

(** ** The whole scan *)
Lemma scan_sound : forall fuel l level pre, (List.length l <= fuel)%nat ->
  match scan_loop fuel level (line_after pre, column_after pre) l with
  | Scanned ts => exists ps, text_of ps = l /\ well_formed level ps /\ ts = tokens_at pre ps
  | ScanError _ line col => exists a b, l = a ++ b /\ line = line_after (pre ++ a) /\ col = column_after (pre ++ a)
  | ScanFuel => False
  end.
Proof.
  induction fuel as [|f IH]; intros l level pre L.
  - destruct l as [|c t]; [|cbn [List.length] in L; lia]. cbn [scan_loop]. exists []. repeat split.
  - destruct l as [|c t]; cbn [scan_loop]; [exists []; repeat split|].
    pose proof (ok_token (0 <? level) c t) as OK.
    destruct (scan_token (0 <? level) c t) as [used rest|k used rest|msg used]; cbn [ok] in OK.
    + destruct OK as [E W]. rewrite advance_ok.
      assert (LR : (List.length rest <= f)%nat).
      { apply (f_equal (@List.length _)) in E. rewrite app_length in E. cbn [List.length] in *.
        destruct W as [[-> _]|[body [-> _]]]; cbn [List.length] in E; lia. }
      specialize (IH rest level (pre ++ used) LR).
      destruct (scan_loop f level _ rest) as [ts|m ln cl|]; [| |exact IH].
      * destruct IH as [ps [<- [WF ->]]]. destruct W as [[-> I]|[body [-> [NN EW]]]].
        -- exists (Blank c :: ps). split; [symmetry; exact E|]. split; [split; assumption|reflexivity].
        -- exists (Comment body :: ps). split; [symmetry; exact E|]. split; [repeat split; assumption|reflexivity].
      * destruct IH as [a [b [-> [-> ->]]]]. exists (used ++ a), b. rewrite E, <- !app_assoc. repeat split.
    + destruct OK as [E [NE LX]]. rewrite advance_ok.
      assert (LR : (List.length rest <= f)%nat).
      { apply (f_equal (@List.length _)) in E. rewrite app_length in E. cbn [List.length] in *.
        destruct used; [contradiction|]. cbn [List.length] in E. lia. }
      specialize (IH rest (level_after level k) (pre ++ used) LR).
      destruct (scan_loop f (level_after level k) _ rest) as [ts|m ln cl|]; [| |exact IH].
      * destruct IH as [ps [<- [WF ->]]]. exists (Lexeme k used :: ps). split; [symmetry; exact E|].
        split; [split; [exact LX|exact WF]|reflexivity].
      * destruct IH as [a [b [-> [-> ->]]]]. exists (used ++ a), b. rewrite E, <- !app_assoc. repeat split.
    + destruct OK as [rest E]. rewrite advance_ok. exists used, rest. repeat split. exact E.
Qed.

Lemma scan_complete : forall ps fuel level pre, (List.length (text_of ps) <= fuel)%nat -> well_formed level ps ->
  scan_loop fuel level (line_after pre, column_after pre) (text_of ps) = Scanned (tokens_at pre ps).
Proof.
  induction ps as [|p ps IH]; intros fuel level pre L WF.
  - destruct fuel; reflexivity.
  - destruct p as [r|body|k t]; unfold text_of in *; cbn [map List.concat piece_text well_formed tokens_at] in *; fold (text_of ps) in *.
    + destruct WF as [I WF]. cbn [app] in *. cbn [List.length] in L. destruct fuel as [|f]; [lia|]. cbn [scan_loop].
      replace (scan_token (0 <? level) r (text_of ps)) with (Skip (N := N) [r] (text_of ps)).
      2:{ cbn [In] in I. destruct I as [<- |[<- |[<- |[<- |[]]]]]; reflexivity. }
      rewrite advance_ok. apply IH; [lia|exact WF].
    + destruct WF as [NN [EW WF]]. cbn [app] in *. cbn [List.length] in L. rewrite app_length in L. destruct fuel as [|f]; [lia|]. cbn [scan_loop].
      change (scan_token (0 <? level) (rn "#") (body ++ text_of ps)) with (comment (N := N) (rn "#") (body ++ text_of ps)).
      unfold comment. rewrite tw_app.
      * rewrite advance_ok. apply IH; [lia|exact WF].
      * apply Forall_forall. intros x I. destruct (x =? newline) eqn:X; [|reflexivity]. apply Z.eqb_eq in X. subst x. contradiction.
      * destruct (text_of ps) as [|x u]; [exact I|]. cbn [ends_with stops] in *. rewrite Z.eqb_sym, EW. reflexivity.
    + destruct WF as [LX WF]. destruct (lexeme_read _ _ _ _ LX) as [c [t' [-> R]]]. cbn [app] in *.
      cbn [List.length] in L. rewrite app_length in L. destruct fuel as [|f]; [lia|]. cbn [scan_loop]. rewrite R.
      rewrite advance_ok. change (level_after level k) with (match k with TLParen => level + 1 | TRParen => level - 1 | _ => level end).
      rewrite IH; [reflexivity|lia|exact WF].
Qed.

Theorem scan_total : forall input,
  match scan input with
  | Scanned ts => exists ps, text_of ps = input /\ well_formed 0 ps /\ ts = tokens_at [] ps
  | ScanError _ line col => exists a b, input = a ++ b /\ line = line_after a /\ col = column_after a
  | ScanFuel => False
  end.
Proof. intros input. apply (scan_sound (List.length input) input 0 []). lia. Qed.

Theorem scan_accepts : forall ps, well_formed 0 ps -> scan (text_of ps) = Scanned (tokens_at [] ps).
Proof. intros ps WF. apply (scan_complete ps (List.length (text_of ps)) 0 []); [lia|exact WF]. Qed.

(** A text is a score in at most one way, up to where blanks are. *)
Theorem pieces_unique : forall ps ps', well_formed 0 ps -> well_formed 0 ps' -> text_of ps = text_of ps' ->
  tokens_at [] ps = tokens_at [] ps'.
Proof.
  intros ps ps' W W' E. apply scan_accepts in W. apply scan_accepts in W'. rewrite E, W' in W. injection W as ->. reflexivity.
Qed.
End Proofs.

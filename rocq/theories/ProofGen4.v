(** Consequences of C54's proofs, and where a tree is not generated again. *)
From Coq Require Import String Ascii ZArith NArith List Bool Lia.
From Verif Require Import Base Num ModelPitch ModelDuration ModelTypes ModelLisp ModelScan ModelParser ModelAst ModelGen
  SpecScan SpecParser ProofParser ProofParseText SpecAst ProofAstTree ModelFormat SpecFormat ProofFormatTop SpecGen ProofGen ProofGen2 ProofGen3.
Import ListNotations.
Local Open Scope string_scope.
Local Open Scope list_scope.
Local Open Scope Z_scope.

Theorem tree_back {N : Num} order input ts a us : Forall scalar input -> scan input = Scanned ts -> plain ts -> ~ empty_alias ts ->
  parse input = Parsed a -> updates a = ROk us -> generate order us = ROk a.
Proof.
  intros S E P A Pa U. destruct (generated order _ _ _ _ S E P Pa U) as (a' & G & _ & X). now rewrite <- (X A).
Qed.
Theorem formatted {N : Num} order (fmt : num -> list rune) cfg input ts a us : Forall scalar input -> scan input = Scanned ts -> plain ts -> ~ empty_alias ts ->
  parse input = Parsed a -> updates a = ROk us -> ~ zero_before_bar ts -> blank_text (c_indent cfg) ->
  everywhere (number_printed fmt) a -> everywhere (fun n => ~ slurred_at_bar n) a ->
  exists a' text, generate order us = ROk a' /\ format fmt cfg a' = Some text /\ compile text = ROk us.
Proof.
  intros S E P A Pa U Z B Nu Sl. exists a. assert (Z' : forall ts, scan input = Scanned ts -> ~ zero_before_bar ts) by (intros ts' E'; congruence).
  destruct (format_parse fmt cfg input a Pa Z' B Nu Sl) as (text & F & Pt). exists text. split; [exact (tree_back order _ _ _ _ S E P A Pa U)|].
  split; [exact F|]. unfold compile. now rewrite Pt.
Qed.

(** Checks for the examples. *)
Definition scalar_check (r : rune) : bool := ((0 <=? r) && (r <? 55296)) || ((57344 <=? r) && (r <? 1114112)).
Lemma scalar_check_ok l : forallb scalar_check l = true -> Forall scalar l.
Proof.
  intros H. rewrite forallb_forall in H. apply Forall_forall. intros r Hr. specialize (H r Hr). unfold scalar_check, scalar, rune in *.
  apply orb_true_iff in H as [H|H]; apply andb_true_iff in H as [A B]; apply Z.leb_le in A; apply Z.ltb_lt in B; lia.
Qed.
Definition alias_check {N : Num} (ts : list token) : bool := forallb (fun t => match tkind t with TAlias [] => false | _ => true end) ts.
Lemma alias_check_ok {N : Num} ts : alias_check ts = true -> ~ empty_alias ts.
Proof. intros H (t & I & K). unfold alias_check in H. rewrite forallb_forall in H. specialize (H t I). rewrite K in H. discriminate. Qed.
Definition tokens_of {N : Num} (input : list rune) : list token := match scan input with Scanned ts => ts | _ => [] end.

Definition all7 : list ModelPitch.letter := [LA; LB; LC; LD; LE; LF; LG].
Lemma all7_ok l : In l all7.
Proof. destruct l; cbn; tauto. Qed.
Definition alias_text : list rune := runes "piano """": c".
Definition group_text : list rune := runes "[V1: c V0:'1]".
Definition shape {N : Num} (r : res node) : option nat :=
  match r with
  | ROk n => Some ((fix size (n : node) : nat := match n with Node _ _ ch => S (list_sum (map size ch)) end) n)
  | _ => None
  end.
Lemma alias_refuted : exists us, @compile XQ alias_text = ROk us /\ exists a b, parse alias_text = Parsed a /\ generate all7 us = ROk b /\ a <> b.
Proof.
  assert (C : match compile (N := XQ) alias_text with ROk _ => true | _ => false end = true) by (vm_compute; reflexivity).
  assert (Q : match parse (N := XQ) alias_text with Parsed _ => true | _ => false end = true) by (vm_compute; reflexivity).
  assert (X : match parse (N := XQ) alias_text with Parsed a => shape (ROk a) | _ => None end <>
    shape (match compile (N := XQ) alias_text with ROk us => generate all7 us | _ => RErr "" end)) by (vm_compute; discriminate).
  destruct (compile (N := XQ) alias_text) as [us| |] eqn:E; [|discriminate|discriminate].
  exists us. split; [reflexivity|]. destruct (text_written (N := XQ) all7 alias_text us all7_ok) as (b & G & _); [apply scalar_check_ok; vm_compute; reflexivity|exact E|].
  destruct (parse (N := XQ) alias_text) as [a| | |] eqn:P; [|discriminate|discriminate|discriminate].
  exists a, b. split; [reflexivity|]. split; [exact G|]. intros ->.
  apply X. rewrite G. reflexivity.
Qed.
Lemma group_refuted : exists us, @compile XQ group_text = ROk us /\ exists a b, parse group_text = Parsed a /\ generate all7 us = ROk b /\ a <> b.
Proof.
  assert (C : match compile (N := XQ) group_text with ROk _ => true | _ => false end = true) by (vm_compute; reflexivity).
  assert (Q : match parse (N := XQ) group_text with Parsed _ => true | _ => false end = true) by (vm_compute; reflexivity).
  assert (X : match parse (N := XQ) group_text with Parsed a => shape (ROk a) | _ => None end <>
    shape (match compile (N := XQ) group_text with ROk us => generate all7 us | _ => RErr "" end)) by (vm_compute; discriminate).
  destruct (compile (N := XQ) group_text) as [us| |] eqn:E; [|discriminate|discriminate].
  exists us. split; [reflexivity|]. destruct (text_written (N := XQ) all7 group_text us all7_ok) as (b & G & _); [apply scalar_check_ok; vm_compute; reflexivity|exact E|].
  destruct (parse (N := XQ) group_text) as [a| | |] eqn:P; [|discriminate|discriminate|discriminate].
  exists a, b. split; [reflexivity|]. split; [exact G|]. intros ->.
  apply X. rewrite G. reflexivity.
Qed.
Lemma stray_end {N : Num} order : exists m, generate order [UVoiceEnd] = RPanic m.
Proof. eexists. reflexivity. Qed.

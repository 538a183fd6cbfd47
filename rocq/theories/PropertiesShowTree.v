(** Property theorems C71: printed trees. *)
From Coq Require Import String Ascii ZArith List Bool.
From Verif Require Import Base Num ModelScan ModelParser ModelAst ModelFormat ProofFormatTop ModelShowTree SpecShowTree ProofShowTree.
Import ListNotations.
Local Open Scope string_scope.
Local Open Scope list_scope.
Local Open Scope Z_scope.

(** C71: if the printed trees of two texts are equal, wherever their nodes are, the
    trees are equal and the texts compile to the same score. *)
Theorem C71_tree : forall {N : Num} (show : literal -> list rune) input input' a b places places',
  parse input = Parsed a -> parse input' = Parsed b -> told_apart show a b ->
  human_readable show places a = human_readable show places' b -> a = b /\ compile input = compile input'.
Proof. exact @c71_tree. Qed.
Print Assumptions C71_tree.

(** C71: the same for the JSON that is printed, whatever the source positions. *)
Theorem C71_json : forall {N : Num} {A : Type} (show : literal -> A) input input' a b places places',
  parse input = Parsed a -> parse input' = Parsed b -> distinct show a b ->
  tree_json show places [] a = tree_json show places' [] b -> a = b /\ compile input = compile input'.
Proof. exact @c71_json. Qed.
Print Assumptions C71_json.

(** Integers in decimal, texts and characters in quotes (numbers do not occur here). *)
Definition plain_show (l : @literal XQ) : list rune :=
  match l with
  | LitInt n => itoa n
  | LitText s => rn """" :: s ++ [rn """"]
  | LitRune r => [rn """"; r; rn """"]
  | _ => []
  end.
Definition text1 : list rune := runes "piano: o5 c+".
Definition text2 : list rune := runes "piano: o5   c+  # a note".
(** Where the nodes of the first line are. *)
Definition at_start (i : nat) : option (Z * Z) := match i with O => None | _ => Some (1, Z.of_nat i) end.
Definition same_literal_b (x y : @literal XQ) : bool :=
  match x, y with
  | LitInt a, LitInt b => a =? b
  | LitText a, LitText b => if list_eq_dec Z.eq_dec a b then true else false
  | LitRune a, LitRune b => a =? b
  | _, _ => false
  end.
Definition same_kind_b (x y : @literal XQ) : bool :=
  match x, y with LitInt _, LitInt _ | LitNum _, LitNum _ | LitText _, LitText _ | LitRune _, LitRune _ => true | _, _ => false end.
Definition told_apart_b (a b : @node XQ) : bool :=
  forallb (fun x => forallb (fun r => negb (r =? newline)) (plain_show x)) (literals a ++ literals b) &&
  forallb (fun x => forallb (fun y => negb (same_kind_b x y && (if list_eq_dec Z.eq_dec (plain_show x) (plain_show y) then true else false)) || same_literal_b x y) (literals b)) (literals a).
Example told_apart_ok a b : told_apart_b a b = true -> told_apart plain_show a b.
Proof.
  intros H. apply andb_true_iff in H as [A B]. split.
  - intros x Hx I. rewrite forallb_forall in A. specialize (A x). rewrite in_app_iff in A. specialize (A Hx). rewrite forallb_forall in A. specialize (A _ I). discriminate.
  - intros x y Hx Hy K E. rewrite forallb_forall in B. specialize (B x Hx). rewrite forallb_forall in B. specialize (B y Hy). rewrite E in B.
    destruct (list_eq_dec Z.eq_dec (plain_show y) (plain_show y)) as [_|D]; [|now elim D].
    destruct x, y; cbn in K, B; try contradiction; try discriminate B.
    + apply Z.eqb_eq in B. now subst.
    + destruct (list_eq_dec Z.eq_dec s s0) as [->|]; [reflexivity|discriminate].
    + apply Z.eqb_eq in B. now subst.
Qed.
Example C71_inhabited :
  exists a b, parse (N := XQ) text1 = Parsed a /\ parse (N := XQ) text2 = Parsed b /\ told_apart plain_show a b /\
    human_readable plain_show at_start a = human_readable plain_show at_start b /\
    firstn 59 (human_readable plain_show at_start a) =
      runes "RootNode" ++ newline :: runes "  PartNode [1:1]" ++ newline :: runes "    PartDeclarationNode [1:2]" ++ newline :: runes "   ".
Proof.
  exists (tree_of text1), (tree_of text2). split; [apply parses_ok; vm_compute; reflexivity|]. split; [apply parses_ok; vm_compute; reflexivity|].
  split; [apply told_apart_ok; vm_compute; reflexivity|]. split; vm_compute; reflexivity.
Qed.
Example C71_json_inhabited :
  exists a b, parse (N := XQ) text1 = Parsed a /\ parse (N := XQ) text2 = Parsed b /\ distinct plain_show a b /\
    tree_json plain_show (fun _ => None) [] a = tree_json plain_show (fun _ => None) [] b.
Proof.
  exists (tree_of text1), (tree_of text2). split; [apply parses_ok; vm_compute; reflexivity|]. split; [apply parses_ok; vm_compute; reflexivity|].
  split; [apply (told_apart_ok (tree_of text1) (tree_of text2)); vm_compute; reflexivity|]. vm_compute. reflexivity.
Qed.

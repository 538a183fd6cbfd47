(** Property theorems C72: messages in a box. *)
From Coq Require Import String Ascii ZArith List Bool Lia.
From Verif Require Import Base ModelScan ModelShowTree ModelBox SpecBox ProofBox.
Import ListNotations.
Local Open Scope string_scope.
Local Open Scope list_scope.
Local Open Scope Z_scope.

(** C72: a box has a top, an empty line, the lines of the message in order and unchanged
    except for spaces after them, an empty line and a bottom, all equally wide, and is
    as wide as the longest line of the message needs. *)
Theorem C72_box : forall strip t, self_contained strip [] -> strip [] = [] -> Forall (self_contained strip) (split_lines t) ->
  exists w pads, Forall (fun l => (length (strip l) <= w)%nat) (split_lines t) /\ (w = 0%nat \/ exists l, In l (split_lines t) /\ length (strip l) = w) /\
    split_lines (boxed strip t) =
      (corner_tl :: repeat horizontal (w + 2) ++ [corner_tr]) :: (vertical :: repeat space (w + 2) ++ [vertical]) ::
      map (fun p => [vertical; space] ++ fst p ++ repeat space (snd p) ++ [space; vertical]) (combine (split_lines t) pads) ++
      [vertical :: repeat space (w + 2) ++ [vertical]; corner_bl :: repeat horizontal (w + 2) ++ [corner_br]] /\
    length pads = length (split_lines t) /\
    Forall (fun l => length (strip l) = (w + 4)%nat) (split_lines (boxed strip t)).
Proof. exact c72_box. Qed.
Print Assumptions C72_box.
(** The lines of a text are what lies between its newlines. *)
Theorem C72_lines : forall t, join_lines (split_lines t) = t /\ Forall (fun l => ~ In newline l) (split_lines t).
Proof. exact c72_lines. Qed.
Print Assumptions C72_lines.

(** Terminal codes that are one character, ESC, in a message of two lines. *)
Definition no_esc (t : list rune) : list rune := filter (fun r => negb (r =? 27)) t.
Definition two_lines : list rune := 27 :: runes "hello" ++ newline :: runes "you".
Example C72_inhabited : self_contained no_esc [] /\ no_esc [] = [] /\ Forall (self_contained no_esc) (split_lines two_lines) /\
  boxed no_esc two_lines =
    [9484; 9472; 9472; 9472; 9472; 9472; 9472; 9472; 9488; 10;
     9474; 32; 32; 32; 32; 32; 32; 32; 9474; 10;
     9474; 32; 27; 104; 101; 108; 108; 111; 32; 9474; 10;
     9474; 32; 121; 111; 117; 32; 32; 32; 9474; 10;
     9474; 32; 32; 32; 32; 32; 32; 32; 9474; 10;
     9492; 9472; 9472; 9472; 9472; 9472; 9472; 9472; 9496].
Proof.
  assert (K : forall a, Forall frame_char a -> no_esc a = a).
  { intros a F. induction F as [|r a Hr _ IH]; [reflexivity|]. unfold no_esc in *. cbn [filter]. destruct (Z.eqb_spec r 27) as [->|_]; [|cbn [negb]; now rewrite IH].
    exfalso. cbn in Hr. unfold space, horizontal, vertical, corner_tl, corner_tr, corner_bl, corner_br in Hr. intuition discriminate. }
  assert (S : forall l, self_contained no_esc l).
  { intros l a b Fa Fb. assert (H : no_esc (a ++ l ++ b) = no_esc a ++ no_esc l ++ no_esc b) by (unfold no_esc; now rewrite !filter_app). rewrite H, (K a Fa), (K b Fb), !app_length. lia. }
  split; [apply S|]. split; [reflexivity|]. split; [apply Forall_forall; intros; apply S|]. vm_compute. reflexivity.
Qed.

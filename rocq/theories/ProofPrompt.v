(** Proofs about questions. *)
From Coq Require Import String Ascii ZArith List Bool Lia.
From Verif Require Import Base ModelScan ModelBox ModelUpdate ModelPrompt SpecPrompt.
Import ListNotations.
Local Open Scope string_scope.
Local Open Scope list_scope.
Local Open Scope Z_scope.

Section Prompt.
Variable other_blank : rune -> bool.
Variable other_lower : rune -> rune.
Hypothesis low_other : forall r, 128 <= r -> 128 <= other_lower r \/ other_lower r = 105 \/ other_lower r = 107.
Notation blank := (is_blank other_blank).
Notation low := (lower other_lower).
Notation trim := (trim_space other_blank).
Notation drop := (drop_blanks other_blank).

Lemma blank_white r : blank r = true <-> white other_blank r.
Proof.
  unfold is_blank, white. cbn [In]. destruct (Z.ltb_spec r 128) as [L|L].
  - rewrite orb_true_iff, andb_true_iff, Z.eqb_eq, !Z.leb_le. lia.
  - split; [auto|]. intros [H|[_ H]]; [lia|exact H].
Qed.
Lemma blanks_white t : Forall (fun r => blank r = true) t <-> Forall (white other_blank) t.
Proof. rewrite !Forall_forall. split; intros H r I; apply blank_white; auto. Qed.
Lemma drop_split t : exists a, t = a ++ drop t /\ Forall (fun r => blank r = true) a.
Proof.
  induction t as [|r t (a & E & F)]; [exists []; split; [reflexivity|constructor]|]. cbn [drop_blanks]. destruct (blank r) eqn:B; [|exists []; split; [reflexivity|constructor]].
  exists (r :: a). cbn [app]. split; [now rewrite <- E|now constructor].
Qed.
Lemma drop_app a t : Forall (fun r => blank r = true) a -> drop (a ++ t) = drop t.
Proof. induction 1 as [|r a B _ IH]; [reflexivity|]. cbn [app drop_blanks]. now rewrite B. Qed.
Lemma trim_split l : exists a b, l = a ++ trim l ++ b /\ Forall (fun r => blank r = true) (a ++ b).
Proof.
  unfold trim_space. destruct (drop_split l) as (a & E & F). destruct (drop_split (rev (drop l))) as (b & E' & F').
  exists a, (rev b). split; [|apply Forall_app; split; [exact F|apply Forall_rev; exact F']].
  rewrite E at 1. f_equal. rewrite <- rev_app_distr, <- E', rev_involutive. reflexivity.
Qed.
Lemma drop_fix m b : m <> [] -> Forall (fun r => blank r = false) m -> drop (m ++ b) = m ++ b.
Proof. intros N F. destruct F as [|r m B F]; [now elim N|]. cbn [app drop_blanks]. now rewrite B. Qed.
Lemma trim_word a m b : Forall (fun r => blank r = true) (a ++ b) -> Forall (fun r => blank r = false) m -> trim (a ++ m ++ b) = m.
Proof.
  intros F G. apply Forall_app in F as [Fa Fb]. unfold trim_space. rewrite drop_app by exact Fa. destruct m as [|r m].
  - cbn [app]. assert (E : drop b = []) by (rewrite <- (app_nil_r b); rewrite drop_app by exact Fb; reflexivity). now rewrite E.
  - rewrite drop_fix; [|discriminate|exact G]. rewrite rev_app_distr, drop_app by (now apply Forall_rev).
    assert (X : drop (rev (r :: m)) = rev (r :: m)).
    { rewrite <- (app_nil_r (rev (r :: m))). apply drop_fix; [|now apply Forall_rev]. intros E. apply (f_equal (@rev rune)) in E. rewrite rev_involutive in E. discriminate. }
    rewrite X, rev_involutive. reflexivity.
Qed.

Definition plain_word (w : list rune) : Prop := Forall (fun x => 97 <= x <= 122 /\ x <> 105 /\ x <> 107) w.
Lemma low_back c x : 97 <= x <= 122 -> x <> 105 -> x <> 107 -> low c = x -> c = x \/ c = x - 32.
Proof.
  unfold lower. intros H H1 H2. destruct (Z.ltb_spec c 128) as [L|L]; [|destruct (low_other c L) as [A|[A|A]]; lia].
  destruct (Z.leb_spec 65 c); cbn [andb]; [destruct (Z.leb_spec c 90)|]; lia.
Qed.
Lemma low_to c x : 97 <= x <= 122 -> c = x \/ c = x - 32 -> low c = x /\ blank c = false.
Proof.
  intros H E. unfold lower, is_blank. destruct (Z.ltb_spec c 128); [|lia].
  assert (B : (c =? 32) = false) by (apply Z.eqb_neq; lia). assert (B' : (c <=? 13) = false) by (apply Z.leb_gt; lia). rewrite B, B', andb_false_r. split; [|reflexivity].
  destruct (Z.leb_spec 65 c); cbn [andb]; [destruct (Z.leb_spec c 90)|]; lia.
Qed.
Lemma word_back m w : plain_word w -> map low m = w -> Forall2 (fun c x => c = x \/ c = x - 32) m w.
Proof.
  revert w. induction m as [|c m IH]; intros [|x w] P E; cbn in E; try discriminate; constructor; inversion E; inversion P as [|? ? (P1 & P2 & P3) P4]; subst.
  - now apply low_back.
  - now apply IH.
Qed.
Lemma word_to m w : plain_word w -> Forall2 (fun c x => c = x \/ c = x - 32) m w -> map low m = w /\ Forall (fun r => blank r = false) m.
Proof.
  intros P F. induction F as [|c x m w H _ IH]; [split; [reflexivity|constructor]|]. inversion P as [|? ? (P1 & P2 & P3) P4]; subst. destruct (IH P4) as [A B].
  destruct (low_to c x P1 H) as [C D]. cbn [map]. split; [now rewrite A, C|now constructor].
Qed.
Lemma says_trim l w : plain_word (runes w) -> says other_blank l w <-> map low (trim l) = runes w.
Proof.
  intros P. split.
  - intros (a & m & b & -> & F & G). apply blanks_white in F. destruct (word_to m _ P G) as [A B]. now rewrite trim_word.
  - intros E. destruct (trim_split l) as (a & b & El & F). exists a, (trim l), b. split; [exact El|]. split; [now apply blanks_white|]. now apply word_back.
Qed.

Lemma reply_spec d l b : reply other_blank other_lower d l = Some b <-> answers other_blank d l b.
Proof.
  unfold answers. assert (P : forall s, In s [""; "y"; "yes"; "n"; "no"] -> plain_word (runes s)).
  { intros s H. cbn in H. destruct H as [<-|[<-|[<-|[<-|[<-|[]]]]]]; vm_compute; repeat constructor; discriminate. }
  rewrite !says_trim by (apply P; cbn; tauto). unfold reply. set (w := map low (trim l)).
  destruct (list_eq_dec Z.eq_dec w (runes "")) as [E|E0].
  { rewrite E. split; [intros [= <-]; auto|]. intros [[_ ->]|[[[H|H] _]|[[H|H] _]]]; [reflexivity|discriminate ..]. }
  destruct (list_eq_dec Z.eq_dec w (runes "y")) as [E|E1].
  { rewrite E. cbn [orb]. split; [intros [= <-]; auto|]. intros [[H _]|[[_ ->]|[[H|H] _]]]; [discriminate|reflexivity|discriminate ..]. }
  destruct (list_eq_dec Z.eq_dec w (runes "yes")) as [E|E2].
  { rewrite E. cbn [orb]. split; [intros [= <-]; auto|]. intros [[H _]|[[_ ->]|[[H|H] _]]]; [discriminate|reflexivity|discriminate ..]. }
  cbn [orb]. destruct (list_eq_dec Z.eq_dec w (runes "n")) as [E|E3].
  { rewrite E. cbn [orb]. split; [intros [= <-]; auto|]. intros [[H _]|[[[H|H] _]|[_ ->]]]; [discriminate ..|reflexivity]. }
  destruct (list_eq_dec Z.eq_dec w (runes "no")) as [E|E4].
  { rewrite E. cbn [orb]. split; [intros [= <-]; auto|]. intros [[H _]|[[[H|H] _]|[_ ->]]]; [discriminate ..|reflexivity]. }
  cbn [orb]. split; [discriminate|]. intros [[H _]|[[[H|H] _]|[[H|H] _]]]; contradiction.
Qed.

Lemma ask_lines_spec d ls b : ask_lines other_blank other_lower d ls = Answered b <->
  exists before l after, ls = before ++ l :: after /\ Forall (fun m => forall c, ~ answers other_blank d m c) before /\ answers other_blank d l b.
Proof.
  induction ls as [|l ls IH]; cbn [ask_lines].
  - split; [discriminate|]. intros (p & l & q & E & _). destruct p; discriminate.
  - destruct (reply other_blank other_lower d l) as [c|] eqn:R.
    + split.
      * intros [= <-]. exists [], l, ls. split; [reflexivity|]. split; [constructor|now apply reply_spec].
      * intros (p & m & q & E & F & A). destruct p as [|x p]; cbn in E; inversion E; subst.
        -- apply reply_spec in A. congruence.
        -- inversion F as [|? ? H _]; subst. elim (H c). now apply reply_spec.
    + rewrite IH. split.
      * intros (p & m & q & -> & F & A). exists (l :: p), m, q. split; [reflexivity|]. split; [|exact A]. constructor; [|exact F]. intros c H. apply reply_spec in H. congruence.
      * intros (p & m & q & E & F & A). destruct p as [|x p]; cbn in E; inversion E; subst.
        -- apply reply_spec in A. congruence.
        -- inversion F; subst. exists p, m, q. auto.
Qed.
Lemma split_line l rest : ~ In 10 l -> split_lines (l ++ 10 :: rest) = l :: split_lines rest.
Proof.
  induction l as [|r l IH]; intros N; [reflexivity|]. cbn [app split_lines]. destruct (Z.eqb_spec r newline) as [E|_]; [elim N; left; exact E|].
  rewrite IH by (intros H; apply N; now right). reflexivity.
Qed.
Lemma split_some t : split_lines t <> [].
Proof. destruct t as [|r t]; cbn [split_lines]; [discriminate|]. destruct (r =? newline); [discriminate|]. destruct (split_lines t); discriminate. Qed.
Lemma split_one t : ~ In 10 t -> split_lines t = [t].
Proof.
  induction t as [|r t IH]; intros N; [reflexivity|]. cbn [split_lines]. destruct (Z.eqb_spec r newline) as [E|_]; [elim N; left; exact E|].
  rewrite IH by (intros H; apply N; now right). reflexivity.
Qed.
Lemma first_line t : ~ In 10 t \/ exists l rest, t = l ++ 10 :: rest /\ ~ In 10 l.
Proof.
  induction t as [|r t IH]; [left; intros []|]. destruct (Z.eq_dec r 10) as [->|N]; [right; exists [], t; split; [reflexivity|intros []]|].
  destruct IH as [H|(l & rest & -> & H)]; [left|right; exists (r :: l), rest; split; [reflexivity|]]; intros [E|E]; congruence || contradiction.
Qed.
Lemma ended_line l rest : ~ In 10 l -> removelast (split_lines (l ++ 10 :: rest)) = l :: removelast (split_lines rest).
Proof. intros N. rewrite split_line by exact N. pose proof (split_some rest). cbn [removelast]. destruct (split_lines rest); [contradiction|reflexivity]. Qed.
Lemma typed_lines before : forall input l, typed input before l <-> exists after, removelast (split_lines input) = before ++ l :: after.
Proof.
  induction before as [|m before IH]; intros input l.
  - split.
    + intros (rest & -> & F). inversion F; subst. cbn [map concat app]. rewrite ended_line by assumption. eexists. reflexivity.
    + intros (after & E). destruct (first_line input) as [N|(x & rest & -> & N)]; [rewrite split_one in E by exact N; discriminate|].
      rewrite ended_line in E by exact N. cbn [app] in E. inversion E; subst. exists rest. split; [reflexivity|]. now repeat constructor.
  - split.
    + intros (rest & -> & F). inversion F as [|? ? Nl F']; subst. inversion F' as [|? ? Nm F'']; subst. cbn [map concat]. rewrite <- !app_assoc. cbn [app].
      rewrite ended_line by exact Nm. assert (T : typed (concat (map (fun m => m ++ [10]) before) ++ l ++ 10 :: rest) before l) by (exists rest; split; [reflexivity|now constructor]).
      apply IH in T as (after & ->). exists after. reflexivity.
    + intros (after & E). destruct (first_line input) as [N|(x & rest & -> & N)]; [rewrite split_one in E by exact N; discriminate|].
      rewrite ended_line in E by exact N. cbn [app] in E. inversion E as [[E1 E2]]; subst x.
      assert (T : typed rest before l) by (apply IH; now exists after). destruct T as (r & -> & F). exists r. inversion F; subst.
      split; [cbn [map concat]; rewrite <- !app_assoc; reflexivity|]. now repeat constructor.
Qed.

Lemma c73_question d input b : ask other_blank other_lower d input = Answered b <->
  exists before l, typed input before l /\ Forall (unclear other_blank d) before /\ answers other_blank d l b.
Proof.
  unfold ask. rewrite ask_lines_spec. split.
  - intros (p & l & q & E & F & A). exists p, l. split; [|split; assumption]. apply typed_lines. now exists q.
  - intros (p & l & T & F & A). apply typed_lines in T as (q & E). exists p, l, q. auto.
Qed.
Lemma c73_crash d input : ask other_blank other_lower d input = Crashed <-> forall before l, typed input before l -> unclear other_blank d l.
Proof.
  assert (K : forall ls, ask_lines other_blank other_lower d ls = Crashed <-> Forall (unclear other_blank d) ls).
  { induction ls as [|l ls IH]; cbn [ask_lines]; [split; [constructor|reflexivity]|]. destruct (reply other_blank other_lower d l) as [c|] eqn:R.
    - split; [discriminate|]. intros F. inversion F as [|? ? H _]; subst. elim (H c). now apply reply_spec.
    - rewrite IH. split; [intros F; constructor; [intros c H; apply reply_spec in H; congruence|exact F]|now inversion 1]. }
  unfold ask. rewrite K. split.
  - intros F p l T. apply typed_lines in T as (q & E). rewrite E in F. apply Forall_app in F as [_ F]. now inversion F.
  - intros H. apply Forall_forall. intros l I. apply in_split in I as (p & q & E). apply (H p). apply typed_lines. now exists q.
Qed.

Lemma c73_consent platform assume_yes input release assets : assets <> [] ->
  prompt_and_install other_blank other_lower platform assume_yes input release = ROk assets <->
  version_assets platform release = ROk assets /\
  (assume_yes = true \/ exists before l, typed input before l /\ Forall (unclear other_blank true) before /\
    (says other_blank l "" \/ says other_blank l "y" \/ says other_blank l "yes")).
Proof.
  intros N. unfold prompt_and_install, install_version. destruct assume_yes; [split; [auto|now intros [H _]]|].
  destruct (ask other_blank other_lower true input) as [b|] eqn:A.
  - pose proof A as A'. apply c73_question in A as (p & l & T & F & X). destruct b.
    + split; [|now intros [H _]]. intros H. split; [exact H|]. right. exists p, l. split; [exact T|]. split; [exact F|]. destruct X as [[X _]|[[X _]|[_ X]]]; [tauto|tauto|discriminate].
    + split; [intros [= H]; congruence|]. intros [_ [H|(q & m & T' & F' & H)]]; [discriminate|].
      assert (B : ask other_blank other_lower true input = Answered true) by (apply c73_question; exists q, m; split; [exact T'|]; split; [exact F'|]; unfold answers; tauto). congruence.
  - split; [discriminate|]. intros [_ [H|(q & m & T' & F' & H)]]; [discriminate|].
    assert (B : ask other_blank other_lower true input = Answered true) by (apply c73_question; exists q, m; split; [exact T'|]; split; [exact F'|]; unfold answers; tauto). congruence.
Qed.
End Prompt.

Lemma c73_last_line : exists d input, forall other_blank other_lower,
  answers other_blank d input true /\ ask other_blank other_lower d input = Crashed.
Proof.
  exists false, (runes "yes"). intros ob ol. split; [|reflexivity]. right; left. split; [right|reflexivity].
  exists [], (runes "yes"), []. split; [reflexivity|]. split; [constructor|]. repeat constructor.
Qed.

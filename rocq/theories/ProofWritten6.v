(** A concrete score of the kind the importer makes (for the examples of C69). *)
From Coq Require Import String Ascii ZArith List Bool Lia.
From Verif Require Import Base Num ModelPitch ModelDuration ModelTypes ModelLisp ModelScan SpecScan ModelParser SpecParser
  ModelAst ModelFormat SpecFormat ProofFormatTop ModelGen SpecGen SpecImporter ProofGen4 SpecWritten ProofWritten5.
Import ListNotations.
Local Open Scope string_scope.
Local Open Scope list_scope.
Local Open Scope Z_scope.

(** Numbers that [int_text] prints so that they read as the same number. *)
Definition int_back (neg : bool) (x : xq) : bool :=
  let t := if neg then tl (int_text x) else int_text x in
  forallb digit t && nonempty_text t && (negb neg || match int_text x with r :: _ => r =? rn "-" | [] => false end) &&
  match x, @float_of XQ neg t [] with Fin p, Fin q => Qcanon.Qc_eq_bool q p | _, _ => false end.
Lemma int_back_ok neg x : int_back neg x = true -> @reads_back XQ int_text neg x.
Proof.
  unfold int_back. intros H. set (t := if neg then tl (int_text x) else int_text x) in *.
  apply andb_true_iff in H. destruct H as [H H4]. apply andb_true_iff in H. destruct H as [H H3]. apply andb_true_iff in H. destruct H as [H1 H2].
  exists t, [], t. split; [apply Forall_forall; intros r Hr; rewrite forallb_forall in H1; specialize (H1 r Hr); unfold digit in H1; apply andb_true_iff in H1; destruct H1 as [U W]; apply Z.leb_le in U, W; now split|].
  split; [destruct t; [discriminate|discriminate]|]. split; [constructor|]. split.
  - subst t. destruct neg; [|reflexivity]. cbn [negb orb] in H3. destruct (int_text x) as [|r l]; [discriminate|]. apply Z.eqb_eq in H3. subst r. reflexivity.
  - destruct x as [p| | |]; try discriminate. destruct (@float_of XQ neg t []) as [q| | |]; try discriminate. f_equal. now apply Qcanon.Qc_eq_bool_correct.
Qed.

Definition n_ (l : ModelPitch.letter) (d : Z) : @update XQ := UPrim (Note (PLetter l None) (Some [CLen (nofZ d) 0]) false).
Definition n2 (l : ModelPitch.letter) (a : accidental) : @update XQ := UPrim (Note (PLetter l (Some [a])) (Some [CLen (nofZ 4) 1; CLen (nofZ 16) 0]) true).
Definition oct (k : Z) : @update XQ := UPrim (Attr (POctave k)).
Definition prelude_part : @wpart XQ :=
  WPart ["piano"] ""
    [UPrim (Attr (PKey (ks_set ks_empty LF (Some [Sharp])))); UPrim (Attr (PTransp (-2))); UPrim (Attr (PDynamic "mf")); oct 4;
     n_ LC 4; UBarline; UChord [oct 5; n_ LC 4; UPrim (Attr POctDown); n_ LE 4]; UPrim (Attr POctUp); UBarline; n2 LG Flat; UPrim (Rest None); UBarline]
    [] [(1, [n_ LC 1; UBarline]); (2, [oct 3; n_ LE 2; n_ LF 2; UBarline])].

Lemma n_plain l d : int_back false (nofZ d) = true -> plain_note int_text (n_ l d).
Proof.
  intros H. split; [discriminate|]. split; [discriminate|]. constructor; [|constructor]. split; [now split|]. now apply int_back_ok.
Qed.
Lemma n2_plain l a : plain_note int_text (n2 l a).
Proof.
  split; [discriminate|]. split; [discriminate|]. constructor; [|constructor; [|constructor]]; (split; [now split|]); apply int_back_ok; vm_compute; reflexivity.
Qed.
Lemma prelude_plain : plain_part int_text prelude_part.
Proof.
  assert (O : forall k, (0 <=? k) && (k <=? 9) = true -> octave_change (oct k)).
  { intros k H. apply andb_true_iff in H. destruct H as [A B]. apply Z.leb_le in A, B. unfold oct, octave_change. split; [exact A|]. unfold max_int32. lia. }
  split; [discriminate|]. split; [|split; [|split; [|split]]].
  - constructor; [|constructor]. exists 112, 105, [97; 110; 111]. split; [apply scalar_check_ok; vm_compute; reflexivity|].
    split; [vm_compute; reflexivity|]. split; [left; lia|]. split; [left; lia|]. repeat (constructor; [vm_compute; reflexivity|]). constructor.
  - exists []. split; [constructor|]. split; [reflexivity|constructor].
  - cbn [w_events prelude_part].
    constructor; [intros l accs E; destruct l; cbn in E; try discriminate; injection E as <-; split; [discriminate|constructor; [discriminate|constructor]]|].
    constructor; [split; [vm_compute; reflexivity|exists true; apply int_back_ok; vm_compute; reflexivity]|].
    constructor; [unfold plain_event; vm_compute; tauto|].
    constructor; [now apply O|]. constructor; [apply n_plain; vm_compute; reflexivity|]. constructor; [exact I|].
    constructor; [split; [constructor; [now apply O|constructor]|split; [apply n_plain; vm_compute; reflexivity|]]; split; [right; exact I|]; apply n_plain; vm_compute; reflexivity|].
    constructor; [exact I|].
    constructor; [exact I|]. constructor; [apply n2_plain|]. constructor; [exact I|]. constructor; [exact I|]. constructor.
  - constructor.
  - cbn [w_last prelude_part]. constructor; [|constructor; [|constructor]]; (split; [cbn; unfold max_int32; lia|]); cbn [snd].
    + constructor; [apply n_plain; vm_compute; reflexivity|]. constructor; [exact I|constructor].
    + constructor; [now apply O|]. constructor; [apply n_plain; vm_compute; reflexivity|]. constructor; [apply n_plain; vm_compute; reflexivity|]. constructor; [exact I|constructor].
Qed.

Lemma prelude_in_range : Forall in_range (score_updates [prelude_part]).
Proof. repeat first [exact (Forall_nil _) | apply Forall_cons; [first [exact I | split; vm_compute; congruence]|]]. Qed.

(** What the text gives is not always what was written: [c4], then a barline. *)
Definition bar_part : @wpart XQ := WPart ["piano"] "" [n_ LC 4; UBarline] [] [].
Lemma bar_plain : plain_part int_text bar_part.
Proof.
  destruct prelude_plain as (A & B & C & _). split; [exact A|]. split; [exact B|]. split; [exact C|]. split; [|split; constructor].
  constructor; [apply n_plain; vm_compute; reflexivity|]. constructor; [exact I|constructor].
Qed.
Lemma Forall2_len {A B : Type} (R : A -> B -> Prop) l l' : Forall2 R l l' -> List.length l = List.length l'.
Proof. induction 1; cbn; congruence. Qed.
Theorem c69_exactly_refuted : exists ps, Forall (plain_part int_text) ps /\
  exists a text us, generate all7 (score_updates ps) = ROk a /\ format int_text default_config a = Some text /\ compile (N := XQ) text = ROk us /\
    List.length us <> List.length (score_updates ps).
Proof.
  exists [bar_part]. assert (F : Forall (plain_part int_text) [bar_part]) by (constructor; [exact bar_plain|constructor]). split; [exact F|].
  destruct (c69_text (N := XQ) int_text default_config all7 all7_ok [bar_part] default_blank F) as (a & text & us & H1 & H2 & H3 & H4).
  exists a, text, us. split; [exact H1|]. split; [exact H2|]. split; [exact H3|]. rewrite <- (Forall2_len _ _ _ H4). vm_compute. discriminate.
Qed.

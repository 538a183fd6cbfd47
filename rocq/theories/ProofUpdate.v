(** Proofs about updating. *)
From Coq Require Import ZArith Ascii String List Bool Arith Lia.
From Verif Require Import Base ProofHeap ModelUpdate SpecUpdate.
Import ListNotations.
Local Open Scope string_scope.
Local Open Scope list_scope.

(** ** Directories *)
Lemma look_put_same n f d : look n (put n f d) = Some f.
Proof. apply aget_aset_same, String.eqb_refl. Qed.
Lemma look_put_other n m f d : n <> m -> look m (put n f d) = look m d.
Proof. intros H. apply aget_aset_other; [intros; apply String.eqb_eq|exact H]. Qed.
Lemma look_remove_same n d : look n (remove n d) = None.
Proof.
  unfold look, remove. induction d as [|[k f] d IH]; [reflexivity|]. cbn [filter fst]. destruct (String.eqb k n) eqn:E; cbn [negb]; [exact IH|].
  cbn [aget]. rewrite E. exact IH.
Qed.
Lemma look_remove_other n m d : n <> m -> look m (remove n d) = look m d.
Proof.
  intros H. unfold look, remove. induction d as [|[k f] d IH]; [reflexivity|]. cbn [filter fst]. destruct (String.eqb k n) eqn:E; cbn [negb aget].
  - apply String.eqb_eq in E as ->. destruct (String.eqb n m) eqn:F; [apply String.eqb_eq in F; contradiction|exact IH].
  - destruct (String.eqb k m); [reflexivity|exact IH].
Qed.

(** ** Names *)
Lemma chars_app a b : list_ascii_of_string (a ++ b)%string = list_ascii_of_string a ++ list_ascii_of_string b.
Proof. induction a as [|c a IH]; [reflexivity|]. cbn. now rewrite IH. Qed.
Lemma chars_inj a b : list_ascii_of_string a = list_ascii_of_string b -> a = b.
Proof. intros H. rewrite <- (string_of_list_ascii_of_string a), <- (string_of_list_ascii_of_string b). now rewrite H. Qed.
Lemma drop_prefix_iff p l r : drop_prefix p l = Some r <-> l = p ++ r.
Proof.
  revert l. induction p as [|c p IH]; intros l; cbn.
  - split; congruence.
  - destruct l as [|x l]; [split; discriminate|]. destruct (Ascii.eqb c x) eqn:E.
    + apply Ascii.eqb_eq in E as ->. rewrite IH. split; congruence.
    + split; [discriminate|]. intros H. injection H as -> _. rewrite Ascii.eqb_refl in E. discriminate.
Qed.
Lemma digit_dec c : digit_char c = true <-> In c (list_ascii_of_string "0123456789").
Proof.
  split.
  - destruct c as [[] [] [] [] [] [] [] []]; vm_compute; intros H; try discriminate H; tauto.
  - intros H. repeat (destruct H as [<-|H]; [reflexivity|]). destruct H.
Qed.
Lemma number_iff s : decimal_number s <-> forallb digit_char (list_ascii_of_string s) = true /\ String.eqb s "" = false.
Proof.
  unfold decimal_number. rewrite forallb_forall, Forall_forall. split; intros [A B]; split.
  - intros c H. now apply digit_dec, B.
  - now apply String.eqb_neq.
  - now apply String.eqb_neq.
  - intros c H. now apply digit_dec, A.
Qed.
Definition nodigit (l : list ascii) : Prop := starts_digit l = false.
Lemma drop_digits_spec l : exists ds, l = ds ++ drop_digits l /\ forallb digit_char ds = true /\ nodigit (drop_digits l).
Proof.
  induction l as [|c l (ds & E & D & N)]; [now exists []|]. cbn [drop_digits]. destruct (digit_char c) eqn:F.
  - exists (c :: ds). cbn. rewrite F. split; [now f_equal|]. now split.
  - exists []. split; [reflexivity|]. split; [reflexivity|]. exact F.
Qed.
Lemma drop_digits_app ds l : forallb digit_char ds = true -> nodigit l -> drop_digits (ds ++ l) = l.
Proof.
  induction ds as [|c ds IH]; intros H N; cbn in *.
  - destruct l as [|x l]; [reflexivity|]. cbn in *. unfold nodigit in N. cbn in N. now rewrite N.
  - apply andb_true_iff in H as [-> H]. now apply IH.
Qed.
Lemma starts_digits ds l : forallb digit_char ds = true -> ds <> [] -> starts_digit (ds ++ l) = true.
Proof. destruct ds as [|c ds]; [contradiction|]. cbn. intros H _. now apply andb_true_iff in H. Qed.

Definition oldname (p t r : list ascii) : list ascii := p ++ list_ascii_of_string "." ++ t ++ list_ascii_of_string "." ++ r ++ list_ascii_of_string ".old".
Definition prog (p : list ascii) : Prop := In p (map list_ascii_of_string programs).
Lemma here_iff l : matches_here l = true <-> exists p t r rest, prog p /\ t <> [] /\ r <> [] /\ forallb digit_char t = true /\ forallb digit_char r = true /\ l = oldname p t r ++ rest.
Proof.
  unfold matches_here. split.
  - destruct (drop_prefix (list_ascii_of_string "alda") l) as [l1|] eqn:E1; [|discriminate]. apply drop_prefix_iff in E1.
    destruct (drop_prefix (list_ascii_of_string ".") _) as [l2|] eqn:E2; [|discriminate]. apply drop_prefix_iff in E2.
    intros H. apply andb_true_iff in H as [S1 H].
    destruct (drop_prefix (list_ascii_of_string ".") (drop_digits l2)) as [l3|] eqn:E3; [|discriminate]. apply drop_prefix_iff in E3.
    apply andb_true_iff in H as [S2 H].
    destruct (drop_prefix (list_ascii_of_string ".old") (drop_digits l3)) as [l4|] eqn:E4; [|discriminate]. apply drop_prefix_iff in E4. clear H.
    destruct (drop_digits_spec l2) as (t & T & Td & Tn). destruct (drop_digits_spec l3) as (r & R & Rd & Rn).
    assert (P : exists p, prog p /\ l = p ++ list_ascii_of_string "." ++ l2).
    { revert E2. unfold optionally. destruct (drop_prefix (list_ascii_of_string "-player") l1) as [x|] eqn:F1.
      - apply drop_prefix_iff in F1. destruct (drop_prefix (list_ascii_of_string ".exe") x) as [y|] eqn:F2; intros ->.
        + apply drop_prefix_iff in F2. exists (list_ascii_of_string "alda-player.exe"). split; [cbn; auto|]. subst. reflexivity.
        + exists (list_ascii_of_string "alda-player"). split; [cbn; auto|]. subst. reflexivity.
      - destruct (drop_prefix (list_ascii_of_string ".exe") l1) as [y|] eqn:F2; intros ->.
        + apply drop_prefix_iff in F2. exists (list_ascii_of_string "alda.exe"). split; [cbn; auto|]. subst. reflexivity.
        + exists (list_ascii_of_string "alda"). split; [cbn; auto|]. subst. reflexivity. }
    destruct P as (p & P & ->). exists p, t, r, l4. split; [exact P|].
    split. { intros ->. cbn in T. rewrite <- T in Tn. unfold nodigit in Tn. congruence. }
    split. { intros ->. cbn in R. rewrite <- R in Rn. unfold nodigit in Rn. congruence. }
    split; [exact Td|]. split; [exact Rd|]. unfold oldname. rewrite T, E3, R, E4 at 1. rewrite <- !app_assoc. reflexivity.
  - intros (p & t & r & rest & P & T & R & Td & Rd & ->).
    assert (X : forall q, starts_digit (t ++ q) = true) by (intros; now apply starts_digits).
    assert (Y : forall q, starts_digit (r ++ q) = true) by (intros; now apply starts_digits).
    assert (Z1 : drop_digits (t ++ list_ascii_of_string "." ++ r ++ list_ascii_of_string ".old" ++ rest) = list_ascii_of_string "." ++ r ++ list_ascii_of_string ".old" ++ rest) by (apply drop_digits_app; [exact Td|reflexivity]).
    assert (Z2 : drop_digits (r ++ list_ascii_of_string ".old" ++ rest) = list_ascii_of_string ".old" ++ rest) by (apply drop_digits_app; [exact Rd|reflexivity]).
    assert (G : forall q, drop_prefix (list_ascii_of_string ".") (list_ascii_of_string "." ++ q) = Some q) by reflexivity.
    assert (G2 : drop_prefix (list_ascii_of_string ".old") (list_ascii_of_string ".old" ++ rest) = Some rest) by reflexivity.
    assert (NE : forall q, drop_prefix (list_ascii_of_string ".exe") (list_ascii_of_string "." ++ t ++ q) = None).
    { intros q. destruct t as [|c t]; [contradiction|]. cbn [list_ascii_of_string app drop_prefix]. rewrite Ascii.eqb_refl.
      destruct (Ascii.eqb "e" c) eqn:E; [|reflexivity]. apply Ascii.eqb_eq in E as <-. discriminate Td. }
    unfold oldname. rewrite <- !app_assoc.
    unfold prog, programs in P. cbn [map In] in P. destruct P as [<-|[<-|[<-|[<-|[]]]]].
    + change (drop_prefix (list_ascii_of_string "alda") (list_ascii_of_string "alda" ++ list_ascii_of_string "." ++ t ++ list_ascii_of_string "." ++ r ++ list_ascii_of_string ".old" ++ rest)) with (Some (list_ascii_of_string "." ++ t ++ list_ascii_of_string "." ++ r ++ list_ascii_of_string ".old" ++ rest)).
      cbv beta iota zeta. unfold optionally. change (drop_prefix (list_ascii_of_string "-player") (list_ascii_of_string "." ++ t ++ list_ascii_of_string "." ++ r ++ list_ascii_of_string ".old" ++ rest)) with (@None (list ascii)). cbv beta iota zeta.
      rewrite NE, G, X, Z1, G, Y, Z2, G2. reflexivity.
    + change (drop_prefix (list_ascii_of_string "alda") (list_ascii_of_string "alda-player" ++ list_ascii_of_string "." ++ t ++ list_ascii_of_string "." ++ r ++ list_ascii_of_string ".old" ++ rest)) with (Some (list_ascii_of_string "-player" ++ list_ascii_of_string "." ++ t ++ list_ascii_of_string "." ++ r ++ list_ascii_of_string ".old" ++ rest)).
      cbv beta iota zeta. unfold optionally. change (drop_prefix (list_ascii_of_string "-player") (list_ascii_of_string "-player" ++ list_ascii_of_string "." ++ t ++ list_ascii_of_string "." ++ r ++ list_ascii_of_string ".old" ++ rest)) with (Some (list_ascii_of_string "." ++ t ++ list_ascii_of_string "." ++ r ++ list_ascii_of_string ".old" ++ rest)). cbv beta iota zeta.
      rewrite NE, G, X, Z1, G, Y, Z2, G2. reflexivity.
    + change (drop_prefix (list_ascii_of_string "alda") (list_ascii_of_string "alda.exe" ++ list_ascii_of_string "." ++ t ++ list_ascii_of_string "." ++ r ++ list_ascii_of_string ".old" ++ rest)) with (Some (list_ascii_of_string ".exe" ++ list_ascii_of_string "." ++ t ++ list_ascii_of_string "." ++ r ++ list_ascii_of_string ".old" ++ rest)).
      cbv beta iota zeta. unfold optionally. change (drop_prefix (list_ascii_of_string "-player") (list_ascii_of_string ".exe" ++ list_ascii_of_string "." ++ t ++ list_ascii_of_string "." ++ r ++ list_ascii_of_string ".old" ++ rest)) with (@None (list ascii)). cbv beta iota zeta.
      change (drop_prefix (list_ascii_of_string ".exe") (list_ascii_of_string ".exe" ++ list_ascii_of_string "." ++ t ++ list_ascii_of_string "." ++ r ++ list_ascii_of_string ".old" ++ rest)) with (Some (list_ascii_of_string "." ++ t ++ list_ascii_of_string "." ++ r ++ list_ascii_of_string ".old" ++ rest)). cbv beta iota zeta.
      rewrite G, X, Z1, G, Y, Z2, G2. reflexivity.
    + change (drop_prefix (list_ascii_of_string "alda") (list_ascii_of_string "alda-player.exe" ++ list_ascii_of_string "." ++ t ++ list_ascii_of_string "." ++ r ++ list_ascii_of_string ".old" ++ rest)) with (Some (list_ascii_of_string "-player.exe" ++ list_ascii_of_string "." ++ t ++ list_ascii_of_string "." ++ r ++ list_ascii_of_string ".old" ++ rest)).
      cbv beta iota zeta. unfold optionally. change (drop_prefix (list_ascii_of_string "-player") (list_ascii_of_string "-player.exe" ++ list_ascii_of_string "." ++ t ++ list_ascii_of_string "." ++ r ++ list_ascii_of_string ".old" ++ rest)) with (Some (list_ascii_of_string ".exe" ++ list_ascii_of_string "." ++ t ++ list_ascii_of_string "." ++ r ++ list_ascii_of_string ".old" ++ rest)). cbv beta iota zeta.
      change (drop_prefix (list_ascii_of_string ".exe") (list_ascii_of_string ".exe" ++ list_ascii_of_string "." ++ t ++ list_ascii_of_string "." ++ r ++ list_ascii_of_string ".old" ++ rest)) with (Some (list_ascii_of_string "." ++ t ++ list_ascii_of_string "." ++ r ++ list_ascii_of_string ".old" ++ rest)). cbv beta iota zeta.
      rewrite G, X, Z1, G, Y, Z2, G2. reflexivity.
Qed.
Lemma somewhere_iff l : matches_somewhere l = true <-> exists pre rest, l = pre ++ rest /\ matches_here rest = true.
Proof.
  induction l as [|c l IH]; cbn [matches_somewhere].
  - rewrite orb_false_r. split.
    + intros H. now exists [], [].
    + intros (pre & rest & E & H). destruct pre; [|discriminate]. cbn in E. now subst rest.
  - rewrite orb_true_iff, IH. split.
    + intros [H|(pre & rest & -> & H)]; [now exists [], (c :: l)|now exists (c :: pre), rest].
    + intros ([|x pre] & rest & E & H); [left; cbn in E; now subst|]. right. injection E as -> ->. now exists pre, rest.
Qed.
Theorem renamed_iff name : is_renamed name = true <-> mentions_old name.
Proof.
  unfold is_renamed, mentions_old. rewrite somewhere_iff. split.
  - intros (pre & rest & E & H). apply here_iff in H as (p & t & r & post & P & T & R & Td & Rd & ->).
    apply in_map_iff in P as (p' & <- & P). exists (string_of_list_ascii pre), p', (string_of_list_ascii t), (string_of_list_ascii r), (string_of_list_ascii post).
    split; [exact P|]. split; [|split].
    + apply number_iff. rewrite list_ascii_of_string_of_list_ascii. split; [exact Td|]. destruct t; [contradiction|reflexivity].
    + apply number_iff. rewrite list_ascii_of_string_of_list_ascii. split; [exact Rd|]. destruct r; [contradiction|reflexivity].
    + apply chars_inj. rewrite !chars_app, !list_ascii_of_string_of_list_ascii. rewrite E. unfold oldname. rewrite <- !app_assoc. reflexivity.
  - intros (b & p & t & r & a & P & T & R & ->). apply number_iff in T as [Td T]. apply number_iff in R as [Rd R].
    exists (list_ascii_of_string b), (list_ascii_of_string ((p ++ "." ++ t ++ "." ++ r ++ ".old") ++ a)%string). split; [now rewrite chars_app|].
    apply here_iff. exists (list_ascii_of_string p), (list_ascii_of_string t), (list_ascii_of_string r), (list_ascii_of_string a).
    split; [now apply in_map|]. split; [intros X; apply (chars_inj t "") in X; subst; discriminate|]. split; [intros X; apply (chars_inj r "") in X; subst; discriminate|].
    split; [exact Td|]. split; [exact Rd|]. unfold oldname. rewrite !chars_app, <- !app_assoc. reflexivity.
Qed.

Lemma programs_not_old n : In n programs -> is_renamed n = false.
Proof. intros H. repeat (destruct H as [<-|H]; [vm_compute; reflexivity|]). destruct H. Qed.
Lemma renamed_old n t r : In n programs -> decimal_number t -> decimal_number r -> is_renamed (renamed_executable n t r) = true.
Proof.
  intros P T R. apply renamed_iff. exists "", n, t, r, "". split; [exact P|]. split; [exact T|]. split; [exact R|]. unfold renamed_executable.
  apply chars_inj. rewrite !chars_app. cbn [list_ascii_of_string app]. now rewrite app_nil_r.
Qed.
Lemma split_dot (x y s t : list ascii) : x ++ "."%char :: s = y ++ "."%char :: t -> forallb digit_char s = true -> forallb digit_char t = true -> x = y /\ s = t.
Proof.
  revert y. induction x as [|c x IH]; intros [|e y] H S T; cbn in H.
  - injection H as ->. now split.
  - injection H as <- ->. rewrite forallb_app in S. cbn in S. apply andb_true_iff in S as [_ S]. discriminate.
  - injection H as -> H. rewrite <- H, forallb_app in T. cbn in T. apply andb_true_iff in T as [_ T]. discriminate.
  - injection H as -> H. destruct (IH _ H S T) as [-> ->]. now split.
Qed.
Lemma renamed_inj n n' t t' r r' : renamed_executable n t r = renamed_executable n' t' r' ->
  decimal_number t -> decimal_number t' -> decimal_number r -> decimal_number r' -> n = n'.
Proof.
  intros H T T' R R'. apply number_iff in T as [T _], T' as [T' _], R as [R _], R' as [R' _]. unfold renamed_executable in H. apply (f_equal list_ascii_of_string) in H. rewrite !chars_app in H.
  rewrite !app_assoc in H. apply app_inv_tail in H. rewrite <- !app_assoc in H.
  assert (H' : (list_ascii_of_string n ++ list_ascii_of_string "." ++ list_ascii_of_string t) ++ "."%char :: list_ascii_of_string r =
               (list_ascii_of_string n' ++ list_ascii_of_string "." ++ list_ascii_of_string t') ++ "."%char :: list_ascii_of_string r').
  { rewrite <- !app_assoc. exact H. }
  apply split_dot in H' as [H1 _]; try assumption. apply (split_dot _ _ _ _ H1) in T as [N _]; [|assumption]. now apply chars_inj.
Qed.

(** ** Installing *)
Local Arguments look : simpl never.
Local Arguments put : simpl never.
Local Arguments remove : simpl never.
Local Arguments renamed_executable : simpl never.
Local Arguments firstn : simpl never.
Section Install.
Variable served : string -> list Z.
Variable windows : bool.
Variable d0 : dir.
Variable assets : list asset.
Hypothesis RA : release_of_alda assets.

Definition new (a : asset) : list Z := served (a_url a).
Definition finish (a : asset) : list instr := if windows then [] else [IChmod a].
Definition untouched (a : asset) (d : dir) : Prop := look (a_name a) d = look (a_name a) d0.
Definition have (a : asset) (got : list (string * list Z)) : Prop := aget String.eqb (a_name a) got = Some (new a).
Definition done (a : asset) (d : dir) : Prop := a_type a = "executable" /\ look (a_name a) d = Some (File (new a) (negb windows)).

Inductive stage (a : asset) (d : dir) (got : list (string * list Z)) : list instr -> Prop :=
| St_refuse : a_type a <> "executable" -> untouched a d -> have a got -> stage a d got [IRefuse a]
| St_path : a_type a = "executable" -> untouched a d -> have a got -> stage a d got (IPath a :: IRename a :: IOpen a :: ICreate a :: ICopy a 0 :: IForget a :: finish a)
| St_rename : a_type a = "executable" -> untouched a d -> have a got -> stage a d got (IRename a :: IOpen a :: ICreate a :: ICopy a 0 :: IForget a :: finish a)
| St_open : a_type a = "executable" -> look (a_name a) d = None -> have a got -> stage a d got (IOpen a :: ICreate a :: ICopy a 0 :: IForget a :: finish a)
| St_create : a_type a = "executable" -> look (a_name a) d = None -> have a got -> stage a d got (ICreate a :: ICopy a 0 :: IForget a :: finish a)
| St_copy n : a_type a = "executable" -> look (a_name a) d = Some (File (firstn n (new a)) false) -> have a got -> stage a d got (ICopy a n :: IForget a :: finish a)
| St_forget : a_type a = "executable" -> look (a_name a) d = Some (File (new a) false) -> stage a d got (IForget a :: finish a)
| St_chmod : a_type a = "executable" -> windows = false -> look (a_name a) d = Some (File (new a) false) -> stage a d got [IChmod a].

Definition fine (a : asset) (d : dir) : Prop :=
  match look (a_name a) d with None => True | Some f => look (a_name a) d0 = Some f \/ becoming served windows a f end.

Inductive going (d : dir) (got : list (string * list Z)) : list instr -> Prop :=
| Go_start : (forall a, In a assets -> untouched a d) -> going d got (installation windows assets)
| Go_next before after : assets = before ++ after -> Forall (fun a => done a d) before -> Forall (fun a => untouched a d /\ have a got) after ->
    going d got (concat (map (install_asset windows) after))
| Go_at before a after l : assets = before ++ a :: after -> Forall (fun a => done a d) before -> stage a d got l -> Forall (fun a => untouched a d /\ have a got) after ->
    going d got (l ++ concat (map (install_asset windows) after)).

Record inv (m : machine) : Prop := Inv {
  iv_clean : Forall (Forall (fun n => is_renamed n = true)) (m_cleaning m);
  iv_others : forall n, ~ In n (map a_name assets) -> is_renamed n = false -> look n (m_dir m) = look n d0;
  iv_fine : forall a, In a assets -> fine a (m_dir m);
  iv_plan : (m_failed m = true /\ m_todo m = []) \/ (m_failed m = false /\ going (m_dir m) (m_got m) (m_todo m)) }.

Lemma asset_not_old a : In a assets -> is_renamed (a_name a) = false.
Proof. intros H. apply programs_not_old. destruct RA as [_ F]. rewrite Forall_forall in F. now apply F. Qed.

(** Directories that agree on the assets. *)
Definition alike (d d' : dir) : Prop := forall a, In a assets -> look (a_name a) d' = look (a_name a) d.
Lemma stage_alike d d' got a l : In a assets -> alike d d' -> stage a d got l -> stage a d' got l.
Proof. intros I H S. specialize (H a I). destruct S; unfold untouched in *; rewrite <- ?H in *; constructor; auto; unfold untouched; congruence. Qed.
Lemma going_alike d d' got l : alike d d' -> going d got l -> going d' got l.
Proof.
  intros H G. destruct G as [U|before after E B A|before a after l E B S A].
  - apply Go_start. intros a I. unfold untouched. rewrite (H a I). now apply U.
  - eapply Go_next; [exact E| |].
    + rewrite Forall_forall in *. intros a I. destruct (B a I) as [T L]. split; [exact T|]. rewrite H; [exact L|]. rewrite E. apply in_or_app. now left.
    + rewrite Forall_forall in *. intros a I. destruct (A a I) as [T L]. split; [|exact L]. unfold untouched. rewrite H; [exact T|]. rewrite E. apply in_or_app. now right.
  - eapply Go_at; [exact E| | |].
    + rewrite Forall_forall in *. intros x I. destruct (B x I) as [T L]. split; [exact T|]. rewrite H; [exact L|]. rewrite E. apply in_or_app. now left.
    + eapply stage_alike; [|exact H|exact S]. rewrite E. apply in_or_app. right. now left.
    + rewrite Forall_forall in *. intros x I. destruct (A x I) as [T L]. split; [|exact L]. unfold untouched. rewrite H; [exact T|]. rewrite E. apply in_or_app. right. now right.
Qed.
Lemma fine_alike d d' a : In a assets -> alike d d' -> fine a d -> fine a d'.
Proof. intros I H. unfold fine. now rewrite (H a I). Qed.

(** A step of the installation of [a] leaves the other assets alone. *)
Definition only (a : asset) (d d' : dir) : Prop := forall n, n <> a_name a -> is_renamed n = false -> look n d' = look n d.
Definition keeps_others (a : asset) (got got' : list (string * list Z)) : Prop := forall n, n <> a_name a -> aget String.eqb n got' = aget String.eqb n got.
Lemma name_in before a after x : assets = before ++ a :: after -> In x (before ++ after) -> a_name x <> a_name a.
Proof.
  intros E I H. destruct RA as [ND _]. rewrite E, map_app in ND. cbn [map] in ND. apply NoDup_remove_2 in ND. apply ND. rewrite <- H, <- map_app. now apply in_map.
Qed.
Lemma others_kept before a after d d' got got' : assets = before ++ a :: after -> only a d d' -> keeps_others a got got' ->
  Forall (fun a => done a d) before -> Forall (fun a => untouched a d /\ have a got) after ->
  Forall (fun a => done a d') before /\ Forall (fun a => untouched a d' /\ have a got') after.
Proof.
  intros E O K B A. rewrite !Forall_forall in *. split; intros x I.
  - assert (N : a_name x <> a_name a) by (eapply name_in; [exact E|apply in_or_app; now left]).
    assert (IA : In x assets) by (rewrite E; apply in_or_app; now left).
    destruct (B x I) as [T L]. split; [exact T|]. rewrite (O _ N (asset_not_old x IA)). exact L.
  - assert (N : a_name x <> a_name a) by (eapply name_in; [exact E|apply in_or_app; now right]).
    assert (IA : In x assets) by (rewrite E; apply in_or_app; right; now right).
    destruct (A x I) as [T L]. split; [unfold untouched; rewrite (O _ N (asset_not_old x IA)); exact T|]. unfold have. rewrite (K _ N). exact L.
Qed.
Lemma only_refl a d : only a d d.
Proof. intros n _ _. reflexivity. Qed.
Lemma only_put a f d : only a d (put (a_name a) f d).
Proof. intros n H _. apply look_put_other. congruence. Qed.
Lemma keeps_refl a got : keeps_others a got got.
Proof. intros n _. reflexivity. Qed.
Lemma keeps_forget a got : keeps_others a got (filter (fun x => negb (String.eqb (fst x) (a_name a))) got).
Proof.
  intros n H. induction got as [|[k v] got IH]; [reflexivity|]. cbn [filter fst]. destruct (String.eqb k (a_name a)) eqn:E; cbn [negb aget].
  - apply String.eqb_eq in E as ->. destruct (String.eqb (a_name a) n) eqn:F; [apply String.eqb_eq in F; congruence|exact IH].
  - destruct (String.eqb k n); [reflexivity|exact IH].
Qed.

Lemma stage_fine a d got l : stage a d got l -> fine a d.
Proof.
  intros S. unfold fine. destruct S as [T U H|T U H|T U H|T L H|T L H|n T L H|T L|T W L]; try rewrite L; try exact Logic.I.
  - rewrite <- U. destruct (look (a_name a) d); [now left|exact Logic.I].
  - rewrite <- U. destruct (look (a_name a) d); [now left|exact Logic.I].
  - rewrite <- U. destruct (look (a_name a) d); [now left|exact Logic.I].
  - right. split; [now exists n|discriminate].
  - right. split; [exists (List.length (new a)); symmetry; apply firstn_all|discriminate].
  - right. split; [exists (List.length (new a)); symmetry; apply firstn_all|discriminate].
Qed.
Lemma done_fine a d : done a d -> fine a d.
Proof.
  intros [_ L]. unfold fine. rewrite L. right. split; [exists (List.length (new a)); symmetry; apply firstn_all|].
  cbn. intros H. split; [now destruct windows|reflexivity].
Qed.

(** One step of the installation of an asset. *)
Inductive advanced (a : asset) (d : dir) (got : list (string * list Z)) : list instr -> Prop :=
| Ad_stage l : stage a d got l -> advanced a d got l
| Ad_done : done a d -> advanced a d got [].
Lemma stage_step a d got l rest fl cl c m : In a assets -> stage a d got l -> act served assets c (Machine d got (l ++ rest) fl cl) = Some m ->
  cleaning c \/ (m = Machine d got [] true cl) \/
  (exists d' got' l', m = Machine d' got' (l' ++ rest) fl cl /\ only a d d' /\ keeps_others a got got' /\ advanced a d' got' l').
Proof.
  intros IA S H. destruct c; try (left; exact Logic.I); right.
  - (* Works *) destruct S as [T U G|T U G|T U G|T L G|T L G|n T L G|T L|T W L]; cbn in H.
    + discriminate.
    + injection H as <-. right. exists d, got, (IRename a :: IOpen a :: ICreate a :: ICopy a 0 :: IForget a :: finish a). split; [reflexivity|]. split; [apply only_refl|]. split; [apply keeps_refl|]. apply Ad_stage. now apply St_rename.
    + destruct (look (a_name a) d) eqn:E; [discriminate|]. injection H as <-. right. exists d, got, (IOpen a :: ICreate a :: ICopy a 0 :: IForget a :: finish a). split; [reflexivity|]. split; [apply only_refl|]. split; [apply keeps_refl|]. apply Ad_stage. now apply St_open.
    + unfold have in G. rewrite G in H. injection H as <-. right. exists d, got, (ICreate a :: ICopy a 0 :: IForget a :: finish a). split; [reflexivity|]. split; [apply only_refl|]. split; [apply keeps_refl|]. apply Ad_stage. now apply St_create.
    + rewrite L in H. injection H as <-. right. exists (put (a_name a) (File [] false) d), got, (ICopy a 0 :: IForget a :: finish a). split; [reflexivity|]. split; [apply only_put|]. split; [apply keeps_refl|]. apply Ad_stage.
      apply St_copy; [exact T| |exact G]. apply look_put_same.
    + unfold have in G. rewrite G in H. destruct (List.length (new a) <=? n)%nat eqn:E; [|discriminate]. injection H as <-. right. exists d, got, (IForget a :: finish a). split; [reflexivity|]. split; [apply only_refl|]. split; [apply keeps_refl|].
      apply Ad_stage, St_forget; [exact T|]. rewrite L. rewrite firstn_all2; [reflexivity|]. now apply Nat.leb_le.
    + injection H as <-. right. exists d, (filter (fun x => negb (String.eqb (fst x) (a_name a))) got), (finish a). split; [reflexivity|]. split; [apply only_refl|]. split; [apply keeps_forget|].
      unfold finish. destruct windows eqn:W.
      * apply Ad_done. split; [exact T|]. rewrite W. exact L.
      * apply Ad_stage. now apply St_chmod.
    + rewrite L in H. injection H as <-. right. exists (put (a_name a) (File (new a) true) d), got, []. split; [reflexivity|]. split; [apply only_put|]. split; [apply keeps_refl|]. apply Ad_done. split; [exact T|]. rewrite look_put_same, W. reflexivity.
  - (* Renames *) destruct S as [T U G|T U G|T U G|T L G|T L G|n T L G|T L|T W L]; cbn in H; try discriminate.
    destruct (look (a_name a) d) as [f|] eqn:E; [|discriminate].
    destruct (forallb digit_char (list_ascii_of_string time) && forallb digit_char (list_ascii_of_string random) && negb (String.eqb time "") && negb (String.eqb random "")) eqn:D; [|discriminate].
    apply andb_true_iff in D as [D D4]. apply andb_true_iff in D as [D D3]. apply andb_true_iff in D as [D1 D2]. apply negb_true_iff in D3, D4.
    assert (NT : decimal_number time) by (apply number_iff; now split). assert (NR : decimal_number random) by (apply number_iff; now split).
    assert (P : In (a_name a) programs) by (destruct RA as [_ F]; rewrite Forall_forall in F; now apply F).
    pose proof (renamed_old _ _ _ P NT NR) as O. injection H as <-. right.
    exists (put (renamed_executable (a_name a) time random) f (remove (a_name a) d)), got, (IOpen a :: ICreate a :: ICopy a 0 :: IForget a :: finish a).
    split; [reflexivity|]. split.
    { intros n N X. rewrite look_put_other; [|intros Y; rewrite Y in O; congruence]. apply look_remove_other. congruence. }
    split; [apply keeps_refl|]. apply Ad_stage, St_open; [exact T| |exact G]. rewrite look_put_other; [apply look_remove_same|].
    intros X. rewrite X in O. rewrite (asset_not_old a IA) in O. discriminate.
  - (* Copies *) destruct S as [T U G|T U G|T U G|T L G|T L G|k T L G|T L|T W L]; cbn in H; try discriminate.
    unfold have in G. rewrite G, L in H. injection H as <-. right. exists (put (a_name a) (File (firstn (k + n) (new a)) false) d), got, (ICopy a (k + n) :: IForget a :: finish a).
    split; [reflexivity|]. split; [apply only_put|]. split; [apply keeps_refl|]. apply Ad_stage, St_copy; [exact T| |exact G]. apply look_put_same.
  - (* Fails *) destruct S as [T U G|T U G|T U G|T L G|T L G|k T L G|T L|T W L]; cbn in H; try (left; congruence).
    injection H as <-. right. exists d, got, (finish a). split; [reflexivity|]. split; [apply only_refl|]. split; [apply keeps_refl|].
    unfold finish. destruct windows eqn:W.
    + apply Ad_done. split; [exact T|]. rewrite W. exact L.
    + apply Ad_stage. now apply St_chmod.
Qed.

Lemma install_stage a d got : untouched a d -> have a got -> stage a d got (install_asset windows a).
Proof.
  intros U H. unfold install_asset. destruct (String.eqb (a_type a) "executable") eqn:E.
  - apply String.eqb_eq in E. now apply St_path.
  - apply String.eqb_neq in E. now apply St_refuse.
Qed.

Lemma clean_step d got todo fl cl c m : Forall (Forall (fun n => is_renamed n = true)) cl -> cleaning c ->
  act served assets c (Machine d got todo fl cl) = Some m ->
  exists d' cl', m = Machine d' got todo fl cl' /\ Forall (Forall (fun n => is_renamed n = true)) cl' /\ (forall n, is_renamed n = false -> look n d' = look n d).
Proof.
  intros F C H. destruct c; try destruct C.
  - assert (H' : Some (Machine d got todo fl (cl ++ [filter is_renamed (map fst d)])) = Some m) by (destruct todo as [|[] ?]; exact H). injection H' as <-. clear H.
    do 2 eexists. split; [reflexivity|]. split; [|reflexivity]. apply Forall_app. split; [exact F|]. repeat constructor.
    apply Forall_forall. intros n I. now apply filter_In in I.
  - cbn in H. assert (H' : match nth_error cl i with Some (n :: names) => Some (Machine (if removed then remove n d else d) got todo fl (set_nth i names cl)) | _ => None end = Some m) by (destruct todo as [|[] ?]; exact H).
    clear H. destruct (nth_error cl i) as [[|n names]|] eqn:E; try discriminate. injection H' as <-.
    assert (X : Forall (fun n => is_renamed n = true) (n :: names)) by (rewrite Forall_forall in F; apply F; eapply nth_error_In, E). inversion X as [|? ? X1 X2]; subst.
    do 2 eexists. split; [reflexivity|]. split.
    + clear E. revert i. induction F as [|y cl Y F IH]; intros [|i]; cbn; constructor; auto.
    + intros k K. destruct removed; [|reflexivity]. apply look_remove_other. congruence.
Qed.

Lemma inv_step c m m' : inv m -> act served assets c m = Some m' -> inv m'.
Proof.
  intros I H. assert (C : cleaning c \/ ~ cleaning c) by (destruct c; cbn; tauto). destruct C as [C|C].
  - destruct m as [d got todo fl cl]. destruct I as [I1 I2 I3 I4]. cbn in *. destruct (clean_step _ _ _ _ _ _ _ I1 C H) as (d' & cl' & -> & F & L).
    assert (AL : alike d d') by (intros a IA; apply L, asset_not_old, IA). split; cbn.
    + exact F.
    + intros n N R. rewrite L by exact R. now apply I2.
    + intros a IA. eapply fine_alike; [exact IA|exact AL|]. now apply I3.
    + destruct I4 as [I4|[I4 G]]; [now left|right]. split; [exact I4|]. eapply going_alike; eassumption.
  - destruct m as [d got todo fl cl]. destruct I as [I1 I2 I3 I4]. cbn in *. destruct I4 as [[-> ->]|[-> G]].
    + destruct c; cbn in *; try tauto; discriminate.
    + assert (AT : forall before a after l, assets = before ++ a :: after -> Forall (fun a => done a d) before -> stage a d got l -> Forall (fun a => untouched a d /\ have a got) after ->
        todo = l ++ concat (map (install_asset windows) after) -> inv m').
      { intros before a after l E B S A ->. assert (IA : In a assets) by (rewrite E; apply in_or_app; right; now left).
        destruct (stage_step _ _ _ _ _ _ _ _ _ IA S H) as [X|[->|(d' & got' & l' & -> & O & K & AD)]]; [contradiction| |].
        - split; cbn; auto.
        - destruct (others_kept _ _ _ _ _ _ _ E O K B A) as [B' A']. split; cbn; [exact I1| | |].
          + intros n N R. rewrite O; [now apply I2| |exact R]. intros ->. apply N. now apply in_map.
          + intros x IX. rewrite E in IX. apply in_app_or in IX as [IX|[<-|IX]].
            * apply done_fine. rewrite Forall_forall in B'. now apply B'.
            * destruct AD as [l'' S'|D']; [eapply stage_fine, S'|now apply done_fine].
            * unfold fine. rewrite Forall_forall in A'. destruct (A' x IX) as [U _]. rewrite <- U. destruct (look (a_name x) d'); [now left|exact Logic.I].
          + right. split; [reflexivity|]. destruct AD as [l'' S'|D'].
            * eapply Go_at; eassumption.
            * cbn [app]. eapply (Go_next _ _ (before ++ [a])); [rewrite <- app_assoc; exact E| |exact A']. apply Forall_app. split; [exact B'|]. constructor; [exact D'|constructor]. }
      destruct G as [U|before after E B A|before a after l E B S A].
      * destruct c; cbn in H; cbn in C; try tauto; try discriminate.
        -- injection H as <-. split; cbn; auto. right. split; [reflexivity|]. apply (Go_next _ _ [] assets); [reflexivity|constructor|].
           apply Forall_forall. intros a IA. split; [now apply U|]. destruct RA as [ND _]. unfold have, new. clear - ND IA.
           induction assets as [|x l IH]; [destruct IA|]. cbn [map aget]. cbn [map] in ND. inversion ND as [|? ? N1 N2]; subst. destruct IA as [->|IA].
           ++ now rewrite String.eqb_refl.
           ++ destruct (String.eqb (a_name x) (a_name a)) eqn:E; [|now apply IH]. apply String.eqb_eq in E. exfalso. apply N1. rewrite E. now apply in_map.
        -- injection H as <-. split; cbn; auto.
      * destruct after as [|a after].
        -- cbn in H. destruct c; cbn in *; try tauto; discriminate.
        -- inversion A as [|? ? [U V] A']; subst. eapply AT; [exact E|exact B|now apply install_stage|exact A'|reflexivity].
      * eapply AT; try eassumption. reflexivity.
Qed.
Lemma inv_start : inv (begins windows d0 assets).
Proof.
  split; cbn; [constructor|reflexivity| |].
  - intros a _. unfold fine. destruct (look (a_name a) d0); [now left|exact Logic.I].
  - right. split; [reflexivity|]. now apply Go_start.
Qed.
Lemma inv_acts cs m m' : inv m -> acts served assets cs m = Some m' -> inv m'.
Proof.
  revert m. induction cs as [|c cs IH]; intros m I H; cbn in H; [congruence|]. destruct (act served assets c m) as [m1|] eqn:E; [|discriminate].
  eapply IH; [|exact H]. eapply inv_step; eassumption.
Qed.
Lemma inv_happens cs m : happens served windows d0 assets cs m -> inv m.
Proof. intros H. eapply inv_acts; [apply inv_start|exact H]. Qed.

Theorem upd_others cs m n : happens served windows d0 assets cs m -> ~ In n (map a_name assets) -> ~ mentions_old n -> look n (m_dir m) = look n d0.
Proof. intros H N R. apply (iv_others m (inv_happens cs m H) n N). apply not_true_is_false. now rewrite renamed_iff. Qed.
Theorem upd_whole cs m a f : happens served windows d0 assets cs m -> In a assets -> look (a_name a) (m_dir m) = Some f ->
  look (a_name a) d0 = Some f \/ becoming served windows a f.
Proof. intros H IA L. pose proof (iv_fine m (inv_happens cs m H) a IA) as F. unfold fine in F. now rewrite L in F. Qed.
Theorem upd_done cs m a : happens served windows d0 assets cs m -> succeeded m -> In a assets ->
  a_type a = "executable" /\ look (a_name a) (m_dir m) = Some (File (served (a_url a)) (negb windows)).
Proof.
  intros H [T F] IA. destruct (iv_plan m (inv_happens cs m H)) as [[X _]|[_ G]]; [congruence|]. rewrite T in G. inversion G as [U E|before after E B A E'|before b after l E B S A E'].
  - destruct after as [|b after]; [|unfold install_asset in E'; cbn in E'; destruct (String.eqb (a_type b) "executable"); discriminate].
    rewrite app_nil_r in E. rewrite <- E in B. rewrite Forall_forall in B. now apply B.
  - destruct S; discriminate.
Qed.
Theorem upd_download pre post m n : Forall cleaning pre -> happens served windows d0 assets (pre ++ Fails :: post) m ->
  m_failed m = true /\ (~ mentions_old n -> look n (m_dir m) = look n d0).
Proof.
  unfold happens, begins. intros P H.
  assert (R : forall cs d got todo cl m', Forall (Forall (fun n => is_renamed n = true)) cl -> acts served assets cs (Machine d got todo true cl) = Some m' -> todo = [] ->
     m_failed m' = true /\ forall n, is_renamed n = false -> look n (m_dir m') = look n d).
  { induction cs as [|c cs IH]; intros d got todo cl m' F X ->; cbn [acts] in X; [injection X as <-; now split|].
    destruct (act served assets c (Machine d got [] true cl)) as [m1|] eqn:E; [|discriminate].
    assert (C : cleaning c) by (destruct c; cbn in E; try discriminate; exact Logic.I).
    destruct (clean_step _ _ _ _ _ _ _ F C E) as (d' & cl' & -> & F' & L). destruct (IH _ _ _ _ _ F' X eq_refl) as [A B]. split; [exact A|].
    intros k K. rewrite B, L; auto. }
  assert (G : forall d got cl, Forall (Forall (fun n => is_renamed n = true)) cl -> acts served assets (pre ++ Fails :: post) (Machine d got (installation windows assets) false cl) = Some m ->
     m_failed m = true /\ forall n, is_renamed n = false -> look n (m_dir m) = look n d).
  { clear H. induction P as [|c pre C P IH]; intros d got cl F X.
    - cbn [app acts] in X. cbn in X. eapply R in X; [|exact F|reflexivity]. exact X.
    - cbn [app acts] in X. destruct (act served assets c _) as [m1|] eqn:E; [|discriminate].
      destruct (clean_step _ _ _ _ _ _ _ F C E) as (d' & cl' & -> & F' & L). destruct (IH _ _ _ F' X) as [A B]. split; [exact A|]. intros k K. rewrite B, L; auto. }
  destruct (G _ _ _ (Forall_nil _) H) as [A B]. split; [exact A|]. intros N. apply B. apply not_true_is_false. now rewrite renamed_iff.
Qed.

(** Nothing is lost while nothing is cleaned up. *)
Definition set_aside (a : asset) (f : file) (d : dir) : Prop :=
  exists t r, decimal_number t /\ decimal_number r /\ look (renamed_executable (a_name a) t r) d = Some f.
Definition pending (a : asset) (todo : list instr) : Prop := todo = [] \/ In (IRename a) todo \/ In (IRefuse a) todo.
Definition kept (m : machine) : Prop := m_cleaning m = [] /\ forall a f, In a assets -> look (a_name a) d0 = Some f ->
  set_aside a f (m_dir m) \/ (look (a_name a) (m_dir m) = Some f /\ pending a (m_todo m)).
Lemma is_program a : In a assets -> In (a_name a) programs.
Proof. intros H. destruct RA as [_ F]. rewrite Forall_forall in F. now apply F. Qed.
Lemma aside_put a b f g d : In a assets -> In b assets -> set_aside a f d -> set_aside a f (put (a_name b) g d).
Proof.
  intros IA IB (t & r & T & R & L). exists t, r. split; [exact T|]. split; [exact R|].
  rewrite look_put_other; [exact L|]. intros X. pose proof (asset_not_old b IB) as Y. rewrite X in Y. rewrite renamed_old in Y; [discriminate|now apply is_program|exact T|exact R].
Qed.
Lemma same_asset a b : In a assets -> In b assets -> a_name a = a_name b -> a = b.
Proof.
  destruct RA as [ND _]. clear -ND. induction assets as [|x l IH]; intros A B E; [destruct A|]. cbn [map] in ND. inversion ND as [|? ? N1 N2]; subst.
  destruct A as [->|A], B as [->|B]; [reflexivity| | |now apply IH].
  - exfalso. apply N1. rewrite E. now apply in_map.
  - exfalso. apply N1. rewrite <- E. now apply in_map.
Qed.
(** What is left to do of an installation under way. *)
Lemma going_instr d got i l : going d got (i :: l) -> i = IDownload \/
  exists before a after l', assets = before ++ a :: after /\ stage a d got (i :: l') /\ l = l' ++ concat (map (install_asset windows) after).
Proof.
  intros G. inversion G as [U E|before after E B A E'|before a after l' E B S A E'].
  - now left.
  - right. destruct after as [|a after]; [discriminate|]. inversion A as [|? ? [U V] A']; subst. pose proof (install_stage a d got U V) as S. cbn [map concat] in E'.
    destruct (install_asset windows a) as [|j l'] eqn:X; [inversion S|]. injection E' as -> <-. exists before, a, after, l'. split; [exact E|]. split; [exact S|reflexivity].
  - right. destruct l' as [|j l'']; [inversion S|]. injection E' as -> <-. exists before, a, after, l''. split; [exact E|]. split; [exact S|reflexivity].
Qed.
Lemma pending_other before a after x l : assets = before ++ a :: after -> (forall y, In (IRename y) l -> y = a) -> (forall y, In (IRefuse y) l -> y = a) ->
  pending x (l ++ concat (map (install_asset windows) after)) -> x = a \/ l ++ concat (map (install_asset windows) after) = [] \/ In x after.
Proof.
  intros E H1 H2 [P|[P|P]]; [now right; left| |]; apply in_app_or in P as [P|P]; auto; right; right.
  - apply in_concat in P as (y & Y & P). apply in_map_iff in Y as (z & <- & Z). unfold install_asset in P. destruct (String.eqb (a_type z) "executable"); cbn in P.
    + destruct P as [P|[P|[P|[P|[P|[P|P]]]]]]; try discriminate; [injection P as <-; exact Z|]. destruct windows; [destruct P|destruct P as [P|[]]; discriminate].
    + destruct P as [P|[]]. discriminate.
  - apply in_concat in P as (y & Y & P). apply in_map_iff in Y as (z & <- & Z). unfold install_asset in P. destruct (String.eqb (a_type z) "executable"); cbn in P.
    + destruct P as [P|[P|[P|[P|[P|[P|P]]]]]]; try discriminate. destruct windows; [destruct P|destruct P as [P|[]]; discriminate].
    + destruct P as [P|[]]. injection P as <-. exact Z.
Qed.
(** Once its old version has been renamed, an asset is not pending any more. *)
Lemma not_pending before a after i l : assets = before ++ a :: after -> (forall y, ~ In (IRename y) (i :: l)) -> (forall y, ~ In (IRefuse y) (i :: l)) ->
  ~ pending a ((i :: l) ++ concat (map (install_asset windows) after)).
Proof.
  intros E H1 H2 P. assert (P' : a = a \/ (i :: l) ++ concat (map (install_asset windows) after) = [] \/ In a after).
  { now left. }
  assert (N : ~ In a after). { intros X. apply (name_in before a after a E); [apply in_or_app; now right|reflexivity]. }
  destruct P as [P|[P|P]]; [discriminate| |]; apply in_app_or in P as [P|P]; try (eapply H1; exact P); try (eapply H2; exact P); apply N.
  - apply in_concat in P as (y & Y & P). apply in_map_iff in Y as (z & <- & Z). unfold install_asset in P. destruct (String.eqb (a_type z) "executable"); cbn in P.
    + destruct P as [P|[P|[P|[P|[P|[P|P]]]]]]; try discriminate; [injection P as <-; exact Z|]. destruct windows; [destruct P|destruct P as [P|[]]; discriminate].
    + destruct P as [P|[]]. discriminate.
  - apply in_concat in P as (y & Y & P). apply in_map_iff in Y as (z & <- & Z). unfold install_asset in P. destruct (String.eqb (a_type z) "executable"); cbn in P.
    + destruct P as [P|[P|[P|[P|[P|[P|P]]]]]]; try discriminate. destruct windows; [destruct P|destruct P as [P|[]]; discriminate].
    + destruct P as [P|[]]. injection P as <-. exact Z.
Qed.
Lemma pending_tail a i l : i <> IRename a -> i <> IRefuse a -> pending a (i :: l) -> pending a l.
Proof. intros A B [P|[[P|P]|[P|P]]]; try discriminate; try congruence; [right; now left|right; now right]. Qed.
Lemma finish_clean a : (forall y, ~ In (IRename y) (finish a)) /\ (forall y, ~ In (IRefuse y) (finish a)).
Proof. unfold finish. destruct windows; split; intros y; cbn; intuition discriminate. Qed.

(** A step that leaves the directory alone, or changes the file of an asset whose
    old version is not in its place. *)
Lemma kept_same d got i todo got' : i <> IDownload -> (forall a, In a assets -> look (a_name a) d0 <> None -> look (a_name a) d <> None -> i <> IRename a) -> (forall a, i <> IRefuse a) ->
  kept (Machine d got (i :: todo) false []) -> kept (Machine d got' todo false []).
Proof.
  intros N1 N2 N3 [_ K]. split; [reflexivity|]. cbn in *. intros a f IA E. destruct (K a f IA E) as [S|[L P]]; [now left|right]. split; [exact L|].
  apply (pending_tail a i); auto. apply N2; congruence.
Qed.
Lemma kept_put d got a g i todo : In a assets -> (forall y, i <> IRename y) -> (forall y, i <> IRefuse y) -> (forall f, look (a_name a) d = Some f -> ~ pending a (i :: todo)) ->
  kept (Machine d got (i :: todo) false []) -> kept (Machine (put (a_name a) g d) got todo false []).
Proof.
  intros IA N1 N2 N [_ K]. split; [reflexivity|]. cbn in *. intros b f IB E. destruct (K b f IB E) as [S|[L P]]; [left; now apply aside_put|].
  destruct (string_dec (a_name b) (a_name a)) as [X|X].
  - apply same_asset in X as ->; try assumption. exfalso. eapply N; eassumption.
  - right. split; [rewrite look_put_other by congruence; exact L|]. now apply (pending_tail b i).
Qed.
Lemma kept_step c m m' : c <> Lists -> inv m -> kept m -> act served assets c m = Some m' -> kept m'.
Proof.
  intros NL I K H. destruct m as [d got todo fl cl]. pose proof K as [K1 K2]. cbn in K1, K2. subst cl.
  destruct (iv_plan _ I) as [[F T]|[F G]]; cbn in F.
  { cbn in T. subst. destruct c; cbn in H; try discriminate; [congruence|]. destruct i; discriminate. }
  cbn in G. subst fl. destruct todo as [|i todo].
  { destruct c; cbn in H; try discriminate; [congruence|]. destruct i; discriminate. }
  assert (FAIL : kept (Machine d got [] true [])). { split; [reflexivity|]. cbn. intros b f IB E. destruct (K2 b f IB E) as [S|[L P]]; [now left|right]. split; [exact L|now left]. }
  destruct c; try congruence.
  5: { exfalso. assert (X : @nth_error (list string) [] i0 = None) by (now destruct i0). destruct i; cbn in H; rewrite X in H; discriminate. }
  all: destruct (going_instr _ _ _ _ G) as [->|(before & a & after & l' & E & S & ->)].
  all: try (cbn in H; discriminate).
  - (* downloaded *) cbn in H. injection H as <-. split; [reflexivity|]. cbn. intros b f IB E. destruct (K2 b f IB E) as [S|[L P]]; [now left|right]. split; [exact L|]. apply (pending_tail b IDownload); (congruence || exact P).
  - assert (IA : In a assets) by (rewrite E; apply in_or_app; right; now left). destruct (finish_clean a) as [F1 F2].
    inversion S as [T U Q|T U Q|T U Q|T L Q|T L Q|n T L Q|T L|T W L]; subst; cbn in H; try discriminate.
    + injection H as <-. eapply kept_same; [| | |exact K]; congruence.
    + destruct (look (a_name a) d) eqn:Z; [discriminate|]. injection H as <-. eapply kept_same; [| | |exact K]; congruence.
    + destruct (aget String.eqb (a_name a) got); [|discriminate]. injection H as <-. eapply kept_same; [| | |exact K]; congruence.
    + rewrite L in H. injection H as <-. eapply (kept_put _ _ a); [exact IA| | | |exact K]; congruence.
    + destruct (aget String.eqb (a_name a) got); [|discriminate]. destruct (_ <=? _)%nat; [|discriminate]. injection H as <-. eapply kept_same; [| | |exact K]; congruence.
    + injection H as <-. eapply kept_same; [| | |exact K]; congruence.
    + rewrite L in H. injection H as <-. eapply (kept_put _ _ a); [exact IA| | | |exact K]; [congruence|congruence|]. intros f _.
      apply (not_pending before a after (IChmod a) [] E); intros y; cbn; intuition discriminate.
  - (* renamed *) assert (IA : In a assets) by (rewrite E; apply in_or_app; right; now left).
    inversion S as [T U Q|T U Q|T U Q|T L Q|T L Q|n T L Q|T L|T W L]; subst; cbn in H; try discriminate.
    destruct (look (a_name a) d) as [g|] eqn:Z; [|discriminate].
    destruct (forallb digit_char (list_ascii_of_string time) && forallb digit_char (list_ascii_of_string random) && negb (String.eqb time "") && negb (String.eqb random "")) eqn:D; [|discriminate].
    apply andb_true_iff in D as [D D4]. apply andb_true_iff in D as [D D3]. apply andb_true_iff in D as [D1 D2]. apply negb_true_iff in D3, D4.
    assert (NT : decimal_number time) by (apply number_iff; now split). assert (NR : decimal_number random) by (apply number_iff; now split).
    injection H as <-. split; [reflexivity|]. cbn. intros b f IB Eb. destruct (string_dec (a_name b) (a_name a)) as [X|X].
    + apply same_asset in X as ->; try assumption. left. exists time, random. split; [exact NT|]. split; [exact NR|]. rewrite look_put_same. unfold untouched in U. congruence.
    + destruct (K2 b f IB Eb) as [(t & r & T' & R' & Y)|[L P]].
      * left. exists t, r. split; [exact T'|]. split; [exact R'|]. rewrite look_put_other.
        -- rewrite look_remove_other; [exact Y|]. intros W. pose proof (asset_not_old a IA) as V. rewrite W, renamed_old in V; [discriminate|now apply is_program|exact T'|exact R'].
        -- intros W. apply renamed_inj in W; try assumption. congruence.
      * right. split.
        -- rewrite look_put_other; [rewrite look_remove_other; [exact L|congruence]|]. intros W. pose proof (asset_not_old b IB) as V. rewrite <- W, renamed_old in V; [discriminate|now apply is_program|exact NT|exact NR].
        -- apply (pending_tail b (IRename a)); try congruence. exact P.
  - (* copies *) assert (IA : In a assets) by (rewrite E; apply in_or_app; right; now left). destruct (finish_clean a) as [F1 F2].
    inversion S as [T U Q|T U Q|T U Q|T L Q|T L Q|k T L Q|T L|T W L]; subst; cbn in H; try discriminate.
    destruct (aget String.eqb (a_name a) got) as [bytes|]; [|discriminate]. rewrite L in H. injection H as <-.
    assert (NP : ~ pending a ((ICopy a k :: IForget a :: finish a) ++ concat (map (install_asset windows) after))).
    { apply (not_pending before a after _ _ E); intros y [X|[X|X]]; try discriminate; [now apply (F1 y)|now apply (F2 y)]. }
    split; [reflexivity|]. cbn. intros b f IB Eb. destruct (K2 b f IB Eb) as [X|[L' P]]; [left; now apply aside_put|].
    destruct (string_dec (a_name b) (a_name a)) as [X|X]; [apply same_asset in X as ->; try assumption; contradiction|].
    right. split; [rewrite look_put_other by congruence; exact L'|]. destruct P as [P|[[P|P]|[P|P]]]; try discriminate; right; [left|right]; now right.
  - (* fails *) cbn in H. injection H as <-. exact FAIL.
  - inversion S as [T U Q|T U Q|T U Q|T L Q|T L Q|k T L Q|T L|T W L]; subst; cbn in H; try (injection H as <-; exact FAIL).
    injection H as <-. eapply kept_same; [| | |exact K]; congruence.
Qed.
Theorem upd_kept cs m a f : happens served windows d0 assets cs m -> ~ In Lists cs -> In a assets -> look (a_name a) d0 = Some f ->
  look (a_name a) (m_dir m) = Some f \/ exists t r, decimal_number t /\ decimal_number r /\ look (renamed_executable (a_name a) t r) (m_dir m) = Some f.
Proof.
  intros H NL IA E.
  assert (K : kept m).
  { assert (K0 : kept (begins windows d0 assets)).
    { split; [reflexivity|]. cbn. intros b g IB Eb. right. split; [exact Eb|]. right. unfold installation.
      assert (X : In (IRename b) (install_asset windows b) \/ In (IRefuse b) (install_asset windows b)) by (unfold install_asset; destruct (String.eqb (a_type b) "executable"); cbn; auto).
      destruct X as [X|X]; [left|right]; right; apply in_concat; exists (install_asset windows b); (split; [now apply in_map|exact X]). }
    unfold happens in H. revert K0 H. pose proof inv_start as I0. revert I0. generalize (begins windows d0 assets). clear E.
    induction cs as [|c cs IH]; intros m0 I0 K0 H; cbn in H; [congruence|]. destruct (act served assets c m0) as [m1|] eqn:X; [|discriminate].
    apply (IH (fun X => NL (or_intror X)) m1); [eapply inv_step; eassumption|eapply kept_step; try eassumption|exact H]. intros ->. apply NL. now left. }
  destruct K as [_ K]. destruct (K a f IA E) as [S|[L _]]; [now right|now left].
Qed.
End Install.

(** ** Cleaning up *)
Lemma remove_keys n d x : In x (map fst (remove n d)) -> In x (map fst d).
Proof. intros H. apply in_map_iff in H as (y & <- & H). apply filter_In in H as [H _]. now apply in_map. Qed.
Fixpoint remove_all (names : list string) (d : dir) : dir := match names with [] => d | n :: t => remove_all t (remove n d) end.
Lemma look_remove_all names d n : look n (remove_all names d) = if existsb (String.eqb n) names then None else look n d.
Proof.
  revert d. induction names as [|x names IH]; intros d; cbn; [reflexivity|]. rewrite IH. destruct (String.eqb n x) eqn:E; cbn.
  - apply String.eqb_eq in E as ->. rewrite look_remove_same. now destruct (existsb _ _).
  - apply String.eqb_neq in E. rewrite look_remove_other by congruence. reflexivity.
Qed.
Lemma set_nth_last {A} (l : list A) (x y : A) : set_nth (List.length l) y (l ++ [x]) = l ++ [y].
Proof. induction l as [|z l IH]; [reflexivity|]. cbn. now rewrite IH. Qed.
Lemma nth_last {A} (l : list A) (x : A) : nth_error (l ++ [x]) (List.length l) = Some x.
Proof. rewrite nth_error_app2 by lia. now rewrite Nat.sub_diag. Qed.
Theorem cleaned served assets m : exists m', acts served assets (cleanup m) m = Some m' /\ m_todo m' = m_todo m /\ m_failed m' = m_failed m /\
  forall n, (mentions_old n -> look n (m_dir m') = None) /\ (~ mentions_old n -> look n (m_dir m') = look n (m_dir m)).
Proof.
  destruct m as [d got todo fl cl]. unfold cleanup. cbn [m_dir m_cleaning acts].
  assert (X : act served assets Lists (Machine d got todo fl cl) = Some (Machine d got todo fl (cl ++ [filter is_renamed (map fst d)]))) by (cbn; destruct todo as [|[] ?]; reflexivity).
  rewrite X. clear X.
  assert (G : forall names d', acts served assets (repeat (Cleans (List.length cl) true) (List.length names)) (Machine d' got todo fl (cl ++ [names])) = Some (Machine (remove_all names d') got todo fl (cl ++ [[]]))).
  { induction names as [|n names IH]; intros d'; [reflexivity|]. cbn [List.length repeat acts].
    assert (Y : act served assets (Cleans (List.length cl) true) (Machine d' got todo fl (cl ++ [n :: names])) = Some (Machine (remove n d') got todo fl (cl ++ [names]))).
    { cbn. rewrite nth_last, set_nth_last. destruct todo as [|[] ?]; reflexivity. }
    rewrite Y. apply IH. }
  rewrite G. eexists. split; [reflexivity|]. split; [reflexivity|]. split; [reflexivity|]. cbn. intros n. rewrite look_remove_all. split; intros H.
  - apply renamed_iff in H. destruct (existsb (String.eqb n) (filter is_renamed (map fst d))) eqn:E; [reflexivity|].
    destruct (look n d) as [f|] eqn:F; [|reflexivity]. exfalso. apply aget_in in F; [|intros; apply String.eqb_eq].
    assert (C : existsb (String.eqb n) (filter is_renamed (map fst d)) = true); [|congruence].
    apply existsb_exists. exists n. split; [|apply String.eqb_refl]. apply filter_In. split; [|exact H]. now apply (in_map fst) in F.
  - destruct (existsb (String.eqb n) (filter is_renamed (map fst d))) eqn:E; [|reflexivity]. exfalso. apply existsb_exists in E as (x & E & Y). apply String.eqb_eq in Y as <-.
    apply filter_In in E as [_ E]. apply H. now apply renamed_iff.
Qed.

(** ** What to install *)
Theorem chosen platform yes latest selected assets : to_install platform yes None latest selected = ROk assets -> assets <> [] ->
  yes = true /\ exists answer releases r, latest = ROk answer /\ children (field "releases" (Some answer)) = Some releases /\ In r releases /\
    (releases = [r] \/ release_label r = selected) /\ version_assets platform (Some r) = ROk assets.
Proof.
  unfold to_install, check_for_updates. destruct latest as [answer| |]; cbn [rbind]; try discriminate.
  destruct (children (field "releases" (Some answer))) as [releases|] eqn:C; [|discriminate].
  assert (IV : forall r, install_version platform yes r = ROk assets -> assets <> [] -> yes = true /\ version_assets platform r = ROk assets).
  { intros r H N. unfold install_version in H. destruct yes; [now split|]. congruence. }
  destruct releases as [|r [|r2 rs]]; intros H N; [congruence| |].
  - destruct (IV _ H N) as [Y V]. split; [exact Y|]. exists answer, [r], r. split; [reflexivity|]. split; [exact C|]. split; [now left|]. split; [now left|exact V].
  - destruct (IV _ H N) as [Y V]. split; [exact Y|]. unfold release_labelled in V.
    destruct (aget String.eqb selected (rev (map (fun r => (release_label r, r)) (r :: r2 :: rs)))) as [x|] eqn:E; [|discriminate].
    apply aget_in in E; [|intros; apply String.eqb_eq]. apply in_rev in E. apply in_map_iff in E as (y & E & I). injection E as E1 E2. subst y.
    exists answer, (r :: r2 :: rs), x. split; [reflexivity|]. split; [exact C|]. split; [exact I|]. split; [now right|exact V].
Qed.

(** ** Counterexamples *)
Definition exe (name url : string) : asset := Asset name "executable" url.
Definition two : list asset := [exe "alda" "u1"; exe "alda-player" "u2"].
Definition serves (url : string) : list Z := if String.eqb url "u1" then [11; 12; 13]%Z else [21; 22]%Z.
Definition before_update : dir := [("alda", File [1; 2]%Z true); ("alda-player", File [3]%Z true); ("notes.txt", File [9]%Z false)].
Definition first_done : list choice := [Works; Works; Renames "1700000000" "42"; Works; Works; Copies 2; Copies 1; Works; Works; Works].
(** The player's copying fails; then an `alda` command cleans up. *)
Definition lost_run : list choice := first_done ++ [Works; Renames "1700000001" "7"; Works; Works; Copies 1; Fails; Lists; Cleans 0 true; Cleans 0 true].
Definition after (cs : list choice) (assets : list asset) (d : dir) : dir :=
  match acts serves assets cs (begins false d assets) with Some m => m_dir m | None => [] end.
Lemma two_release : release_of_alda two.
Proof. split; [constructor; [cbn; intuition discriminate|constructor; [cbn; tauto|constructor]]|]. apply Forall_forall. intros a [<-|[<-|[]]]; cbn; auto 10. Qed.
Lemma lost_refuted : exists served d assets cs m a f, release_of_alda assets /\ happens served false d assets cs m /\ In a assets /\ look (a_name a) d = Some f /\ f_exec f = true /\
  forall n g, look n (m_dir m) = Some g -> g <> f /\ ~ (f_exec g = true /\ f_bytes g = served (a_url a)).
Proof.
  exists serves, before_update, two, lost_run, (Machine [("notes.txt", File [9]%Z false); ("alda", File [11; 12; 13]%Z true); ("alda-player", File [21]%Z false)] [("alda-player", [21; 22]%Z)] [] true [[]]), (exe "alda-player" "u2"), (File [3]%Z true).
  split; [exact two_release|]. split; [vm_compute; reflexivity|]. split; [right; now left|]. split; [reflexivity|]. split; [reflexivity|].
  intros n g H. unfold look in H. cbn [m_dir aget] in H. repeat (match type of H with context [String.eqb ?x n] => destruct (String.eqb x n) end; [injection H as <-; split; [discriminate|intros [A B]; cbn in A; vm_compute in B; discriminate]|]). discriminate.
Qed.
(** A release with an asset of an unknown type. *)
Definition odd : list asset := [exe "alda" "u1"; Asset "alda-player" "archive" "u2"].
Lemma half_refuted : exists served d assets cs m a b, release_of_alda assets /\ happens served false d assets cs m /\ m_failed m = true /\ m_todo m = [] /\ In a assets /\ In b assets /\
  look (a_name a) (m_dir m) = Some (File (served (a_url a)) true) /\ look (a_name a) (m_dir m) <> look (a_name a) d /\ look (a_name b) (m_dir m) = look (a_name b) d /\ look (a_name b) d <> None.
Proof.
  exists serves, before_update, odd, (first_done ++ [Fails]). eexists. exists (exe "alda" "u1"), (Asset "alda-player" "archive" "u2").
  split; [split; [constructor; [cbn; intuition discriminate|constructor; [cbn; tauto|constructor]]|]; apply Forall_forall; intros a [<-|[<-|[]]]; cbn; auto 10|]. split; [vm_compute; reflexivity|].
  split; [reflexivity|]. split; [reflexivity|]. split; [now left|]. split; [right; now left|]. split; [reflexivity|]. split; [discriminate|]. split; [reflexivity|discriminate].
Qed.
Lemma foreign_refuted : mentions_old "my-alda.2024.11.old-scores.zip".
Proof. apply renamed_iff. vm_compute. reflexivity. Qed.

(** What an imported score's text plays. *)
From Coq Require Import String Ascii ZArith List Bool Lia.
From Verif Require Import Base Num ModelPitch ModelDuration ModelInstruments ModelTypes ModelLisp ModelScan SpecScan ModelParser ModelAst ModelFormat SpecFormat
  ModelScore ModelImporter ModelGen SpecLisp SpecGen SpecScore SpecImporter ProofStep ProofLisp ProofImporter ProofImporter3 ProofImporter5 ProofImporter6 SpecWritten ProofWritten5.
Import ListNotations.
Local Open Scope string_scope.
Local Open Scope list_scope.
Local Open Scope Z_scope.

Section Plays.
Context {N : Num}.
Hypothesis zero_law : forall t l,
  nadd (fold_left (fun acc c => nadd acc (comp_ms t c)) l n0) n0
  = fold_left (fun acc c => nadd acc (comp_ms t c)) l n0.
Hypothesis transp_law : forall k, - 2 ^ 31 <= k < 2 ^ 31 -> integer (nofZ k) = ROk k.
Variable deref : string -> score -> score * outcome.
Variable dd : list (string * list update) -> string -> part -> dres.
Notation run1 := (run_upd deref dd).
Notation runs := (ProofImporter.runs deref dd).
Notation R := (@ProofImporter.R N false).
Notation RR := (@ProofImporter.RR N false).
Notation text := (@SpecImporter.text_of N).

Definition quiet (s : score) : Prop := ga_offs (globals s) = [].
(** Both do the same, up to barlines in the last written length. *)
Definition alike (f g : score -> score * outcome) : Prop :=
  forall s t, quiet s -> R s t -> RR (f s) (g t) /\ (snd (f s) = Ok -> quiet (fst (f s))).
Definition alikes (us us' : list update) : Prop := alike (runs us) (runs us').

Lemma alikes_app a a' b b' : alikes a a' -> alikes b b' -> alikes (a ++ b) (a' ++ b').
Proof.
  intros A B s t Q H. destruct (A s t Q H) as [[A1 A2] A3]. rewrite !(runs_app deref dd).
  destruct (runs a s) as [s1 o1], (runs a' t) as [t1 o1']. cbn [fst snd] in *. subst o1'.
  destruct o1; cbn [seqo]; try (split; [split; [exact A1|reflexivity]|discriminate]). apply B; [apply A3; reflexivity|exact A1].
Qed.
Lemma alikes_nil : alikes [] [].
Proof. intros s t Q H. split; [split; [exact H|reflexivity]|]. intros _. exact Q. Qed.
Lemma alikes_one u u' : alike (run1 u) (run1 u') -> alikes [u] [u'].
Proof. intros A s t Q H. rewrite !(runs_one deref dd). now apply A. Qed.
Lemma alikes_eq us us' vs : alikes us us' -> (forall s, runs us' s = runs vs s) -> alikes us vs.
Proof. intros A E s t Q H. rewrite <- E. now apply A. Qed.

Lemma note_alike nr d d' : dur_like d d' -> alike (add_note_or_rest nr d) (add_note_or_rest nr d').
Proof.
  intros D s t Q H. split.
  - apply (@add_note_like N false zero_law); [exact H|exact Q| |exact D]. intros pd _. destruct nr as [[p sl]|]; [|exact I]. split; [reflexivity|].
    pose proof (R_getp _ _ pd H) as E. rewrite (e1_octave _ _ E eq_refl), (e1_key _ _ E), (e1_transp _ _ E). reflexivity.
  - intros _. unfold quiet. rewrite (kept_globals _ _ (proj1 (@add_note_kept N false nr d s Q))). exact Q.
Qed.
Lemma attr_alike a : alike (run_attr a) (run_attr a).
Proof.
  intros s t Q H. split; [now apply run_attr_like|]. intros _. unfold quiet. destruct (run_attr_same a s) as (_ & _ & -> & _). exact Q.
Qed.
Lemma part_alike n a : alike (run_part n a) (run_part n a).
Proof.
  intros s t Q H. split; [now apply run_part_like|]. intros _. unfold quiet. destruct (run_part n a s) as [s' o] eqn:E. apply run_part_store in E. destruct E as [_ E]. cbn [fst]. rewrite E. exact Q.
Qed.
Lemma voice_alike n : alike (run_voice n) (run_voice n).
Proof.
  intros s t Q H. split; [now apply run_voice_like|]. unfold quiet. intros _.
  assert (X : forall c i s, globals (fst (voice_loop n i c s)) = globals s).
  { induction c as [|c IH]; intros i s0; [reflexivity|]. cbn [voice_loop]. destruct (nth_error (current s0) i) as [p|]; [|reflexivity].
    destruct (get_voice p n s0) as [[v s1]|m|m] eqn:E; try reflexivity.
    rewrite IH. cbn. now apply get_voice_store in E. }
  unfold run_voice. now rewrite X.
Qed.
Lemma vend_alike : alike (fun s => (run_voice_end s, Ok)) (fun s => (run_voice_end s, Ok)).
Proof.
  intros s t Q H. split; [split; [now apply run_voice_end_like|reflexivity]|]. intros _. unfold quiet. cbn [fst].
  assert (E : variables (run_voice_end s) = variables s /\ globals (run_voice_end s) = globals s) by apply vend_loop_store. destruct E as [_ ->]. exact Q.
Qed.

(** Chords. *)
Definition member (u u' : update) : Prop := alike (run1 u) (run1 u') /\ dur_like (written_dur u) (written_dur u').
Lemma chord_go_alike es es' : Forall2 member es es' -> forall m, alike (chord_go deref dd es m) (chord_go deref dd es' m).
Proof.
  induction 1 as [|u u' es es' [A D] F IH]; intros m s t Q H.
  - cbn [chord_go]. assert (H' : R (set_chordmode false s) (set_chordmode false t)) by now apply R_set_chordmode. split; [now apply finish_like|].
    intros _. unfold quiet. rewrite (kept_globals _ _ (finish_kept m (set_chordmode false s))). exact Q.
  - cbn [chord_go]. rewrite (@lower_like N false zero_law _ _ _ _ m H D). destruct (A s t Q H) as [[A1 A2] A3].
    destruct (run1 u s) as [s1 o1], (run1 u' t) as [t1 o1']. cbn [fst snd] in *. subst o1'.
    destruct o1; cbn [seqo]; try (split; [split; [exact A1|reflexivity]|discriminate]). apply IH; [apply A3; reflexivity|exact A1].
Qed.
Lemma chord_alike es es' : Forall2 member es es' -> alike (run1 (UChord es)) (run1 (UChord es')).
Proof.
  intros F s t Q H. rewrite !run_chord. assert (Q' : quiet t) by (unfold quiet; rewrite <- (R_globals _ _ H); exact Q).
  destruct (@apply_none N false s Q) as (s1 & -> & R1 & K1 & _). destruct (@apply_none N false t Q') as (t1 & -> & R2 & K2 & _). cbn [seqo].
  assert (H1 : R s1 t1) by (eapply R_trans; [exact R1|eapply R_trans; [exact H|now apply R_sym]]).
  rewrite (R_current _ _ H1). apply chord_go_alike; [exact F| |now apply R_set_chordmode].
  unfold quiet. cbn. rewrite (kept_globals _ _ K1). exact Q.
Qed.

(** Barlines after a length. *)
Lemma bars_like cs k : dur_like (Some cs) (Some (cs ++ repeat CBar k)).
Proof.
  unfold dur_like, nobar. f_equal. rewrite filter_app. replace (filter (fun c => negb (is_cbar c)) (repeat CBar k)) with (@nil (@component N)); [now rewrite app_nil_r|].
  induction k as [|k IH]; [reflexivity|exact IH].
Qed.
Lemma like_refl d : dur_like d d. Proof. reflexivity. Qed.
Definition notelike (u : update) : Prop := match u with UPrim (Note _ _ _) | UPrim (Rest _) | UPrim (Attr _) => True | _ => False end.
Lemma notelike_member u : notelike u -> member u u.
Proof.
  destruct u as [[p d s|d|a|a]| | | | | | | | | | | | | | |]; try contradiction; intros _; (split; [|apply like_refl]); cbn [run_upd run_prim].
  - apply note_alike, like_refl.
  - apply note_alike, like_refl.
  - apply attr_alike.
Qed.
Lemma bars_member u k : ends_in_length u = true -> member u (add_bars k u).
Proof.
  destruct u as [[p [d|] []|[d|]|a|a]| | | | | | | | | | | | | | |]; try discriminate; intros _; (split; [|apply bars_like]); cbn [run_upd run_prim add_bars]; apply note_alike, bars_like.
Qed.
Lemma on_last_members es k : es <> [] -> Forall notelike es -> ends_in_length (last es UNil) = true -> Forall2 member es (on_last (add_bars k) es).
Proof.
  intros NE F. induction F as [|u es Hu F IH]; [congruence|]. destruct es as [|v es].
  - intros E. constructor; [|constructor]. now apply bars_member.
  - intros E. cbn [on_last]. constructor; [now apply notelike_member|]. apply IH; [discriminate|exact E].
Qed.
Lemma unled_runs us s : runs us s = runs (unled us) s.
Proof.
  revert s. induction us as [|u us IH]; intros s; [reflexivity|]. destruct u; try reflexivity. cbn [unled]. rewrite <- IH. reflexivity.
Qed.

Variable fmt : num -> list rune.
Notation plain_event := (plain_event fmt).

Lemma plain_notelike u : plain_note fmt u -> notelike u.
Proof. destruct u as [[p d s|d|a|a]| | | | | | | | | | | | | | |]; try contradiction; intros _; exact I. Qed.
Lemma octave_notelike u : octave_change u -> notelike u.
Proof. destruct u as [[p d s|d|a|a]| | | | | | | | | | | | | | |]; try contradiction; intros _; exact I. Qed.
Lemma more_notelike es : chord_more fmt es -> Forall notelike es.
Proof.
  induction es as [|x t IH]; [contradiction|]. cbn [chord_more]. destruct t as [|y t].
  - intros H. constructor; [now apply plain_notelike in H|constructor].
  - intros [[H|H] M]; (constructor; [|now apply IH]); [now apply plain_notelike in H|now apply octave_notelike].
Qed.
Lemma chord_notelike es : plain_chord fmt es -> Forall notelike (fst (split_octaves es)) /\ Forall notelike (snd (split_octaves es)) /\ snd (split_octaves es) <> [].
Proof.
  intros [A B]. split; [eapply Forall_impl; [|exact A]; intros u; apply octave_notelike|]. destruct (snd (split_octaves es)) as [|n t]; [contradiction|].
  destruct B as [B C]. split; [|discriminate]. constructor; [now apply plain_notelike in B|now apply more_notelike].
Qed.
Lemma refl_list us : Forall notelike us -> alikes us us.
Proof.
  induction 1 as [|u us H F IH]; [exact alikes_nil|]. apply (alikes_app [u] [u]); [|exact IH]. apply alikes_one. now apply notelike_member.
Qed.
Lemma absorb_alike u t t' : match u with UChord es => Forall notelike es /\ es <> [] | UBarline => True | _ => notelike u end ->
  alikes t t' -> alikes (u :: t) (absorb u t').
Proof.
  intros H A. assert (U : alikes t (unled t')) by (eapply alikes_eq; [exact A|intros s; apply unled_runs]).
  assert (S : match u with UChord _ | UBarline => False | _ => notelike u end -> alikes (u :: t) (if ends_in_length u then add_bars (leading t') u :: unled t' else u :: t')).
  { intros K. assert (K' : notelike u) by (destruct u; try contradiction; exact K). destruct (ends_in_length u) eqn:E.
    - apply (alikes_app [u] [add_bars (leading t') u]); [|exact U]. apply alikes_one. now apply bars_member.
    - apply (alikes_app [u] [u]); [|exact A]. apply alikes_one. now apply notelike_member. }
  destruct u as [p| | | |l| | | | | | | | | | |]; try (apply S; exact H); try contradiction.
  - cbn [absorb ends_in_length]. apply (alikes_app [UBarline] [UBarline]); [|exact A]. apply alikes_one. intros s s' Q E. split; [split; [exact E|reflexivity]|]. intros _; exact Q.
  - destruct H as [H NE]. cbn [absorb]. destruct (ends_in_length (last l UNil)) eqn:E.
    + apply (alikes_app [UChord l] [UChord (on_last (add_bars (leading t')) l)]); [|exact U]. apply alikes_one, chord_alike. now apply on_last_members.
    + apply (alikes_app [UChord l] [UChord l]); [|exact A]. apply alikes_one, chord_alike. clear -H zero_law transp_law. induction H; constructor; auto using notelike_member.
Qed.
Lemma transp_eval k : - 2 ^ 31 <= k < 2 ^ 31 -> eval_update [LSym "transpose"; LNum (nofZ k)] = ROk (Some (Attr (PTransp k))).
Proof. intros H. unfold eval_update. cbn. rewrite (transp_law k H). reflexivity. Qed.

Lemma read_alike us : Forall plain_event us -> Forall in_range us -> alikes (text us) (as_read us).
Proof.
  intros F G. induction us as [|u us IH]; [exact alikes_nil|]. inversion F as [|x1 x2 H F']; subst. inversion G as [|x1 x2 Hr G']; subst.
  specialize (IH F' G'). unfold SpecImporter.text_of in *. cbn [flat_map].
  assert (S : match u with UChord _ => False | UPrim (Attr (PTransp _)) => False | UBarline => True | _ => notelike u end -> alikes (as_written u ++ flat_map as_written us) (as_read (u :: us))).
  { intros K. replace (as_read (u :: us)) with (absorb u (as_read us)) by (destruct u as [[p d s|d|[]|a]| | | | | | | | | | | | | | |]; try contradiction; reflexivity).
    replace (as_written u) with [u] by (destruct u as [[p d s|d|[]|a]| | | | | | | | | | | | | | |]; try contradiction; reflexivity).
    apply absorb_alike; [|exact IH]. destruct u as [[p d s|d|[]|a]| | | | | | | | | | | | | | |]; try contradiction; exact I. }
  destruct u as [[p d s|d|a|a]| | | |es| | | | | | | | | | |]; try (apply S; exact I); try contradiction.
  - destruct a as [ | | | | | | | | | | | |z| | ]; try (apply S; exact I). cbn [as_written as_read]. apply (alikes_app [UPrim (Attr (PTransp z))] [ULisp [LSym "transpose"; LNum (nofZ z)]]); [|exact IH].
    apply alikes_one. intros s t Q E. cbn [run_upd]. rewrite (transp_eval z Hr). cbn [run_prim]. now apply attr_alike.
  - cbn [as_written as_read]. destruct (chord_notelike es H) as (A & B & C). destruct (split_octaves es) as [a b]. cbn [fst snd] in *.
    rewrite <- app_assoc. apply alikes_app; [now apply refl_list|]. apply absorb_alike; [now split|exact IH].
Qed.
Lemma text_cat (a b : list update) : text (a ++ b) = text a ++ text b. Proof. unfold SpecImporter.text_of. apply flat_map_app. Qed.
Lemma voices_alike vs : Forall (plain_voice fmt) vs -> Forall in_range (voices_updates vs) -> alikes (text (voices_updates vs)) (voices_updates (map voice_read vs)).
Proof.
  intros F G. induction F as [|v vs [_ H] F IH]; [exact alikes_nil|]. unfold voices_updates in *. cbn [flat_map map] in *.
  apply Forall_app in G. destruct G as [G1 G2]. inversion G1 as [|x1 x2 _ G3]; subst. rewrite text_cat. apply alikes_app; [|now apply IH].
  cbn [voice_read fst snd]. apply (alikes_app [UVoice (fst v)] [UVoice (fst v)]); [apply alikes_one; exact (voice_alike (fst v))|]. now apply read_alike.
Qed.
Lemma part_text_alike p : plain_part fmt p -> Forall in_range (wpart_updates p) -> alikes (text (wpart_updates p)) (wpart_updates (part_read p)).
Proof.
  intros (_ & _ & _ & Fe & Fg & Fl) G. unfold wpart_updates in *. inversion G as [|x1 x2 _ G1]; subst. apply Forall_app in G1. destruct G1 as [G1 G2].
  apply Forall_app in G2. destruct G2 as [G2 G3]. cbn [w_names w_alias w_events w_groups w_last part_read].
  apply (alikes_app [UPart (w_names p) (w_alias p)] [UPart (w_names p) (w_alias p)]); [apply alikes_one; exact (part_alike _ _)|].
  fold (SpecImporter.text_of (w_events p ++ flat_map (fun g => voices_updates (fst g) ++ UVoiceEnd :: snd g) (w_groups p) ++ voices_updates (w_last p))).
  rewrite !text_cat. apply alikes_app; [now apply read_alike|]. apply alikes_app; [|now apply voices_alike].
  clear -Fg G2 zero_law transp_law. induction Fg as [|g gs (_ & V & E) F IH]; [exact alikes_nil|]. cbn [flat_map map] in *. apply Forall_app in G2. destruct G2 as [G2 G3].
  apply Forall_app in G2. destruct G2 as [G1 G2]. inversion G2 as [|x1 x2 _ G4]; subst. rewrite !text_cat. cbn [fst snd].
  apply alikes_app; [|now apply IH]. apply alikes_app; [now apply voices_alike|].
  apply (alikes_app [UVoiceEnd] [UVoiceEnd]); [apply alikes_one; exact vend_alike|]. now apply read_alike.
Qed.
Lemma score_alike ps : Forall (plain_part fmt) ps -> Forall in_range (score_updates ps) -> alikes (text (score_updates ps)) (score_updates (map part_read ps)).
Proof.
  intros F G. induction F as [|p ps H F IH]; [exact alikes_nil|]. unfold score_updates in *. cbn [flat_map map] in *. apply Forall_app in G. destruct G as [G1 G2].
  rewrite text_cat. apply alikes_app; [now apply part_text_alike|now apply IH].
Qed.

(** S-expressions. *)
Definition tame (u : update) : Prop :=
  match u with
  | UChord es => Forall notelike es
  | UPrim _ | ULisp _ | UBarline | UPart _ _ | UVoice _ | UVoiceEnd => True
  | _ => False
  end.
Lemma lisp_runs els p s : eval (LList els) = ROk (LUpd p) -> run1 (ULisp els) s = run1 (UPrim p) s.
Proof. intros H. cbn [run_upd]. unfold eval_update. rewrite H. reflexivity. Qed.
Lemma note_reads u u' : notelike u -> reads_as u u' -> (forall s, run1 u' s = run1 u s) /\ written_dur u' = written_dur u.
Proof.
  intros K H. destruct H; try contradiction.
  - now split.
  - split; [intros s; now apply lisp_runs|reflexivity].
  - split; [intros s; now apply lisp_runs|reflexivity].
Qed.
Lemma chord_reads es es' : Forall notelike es -> Forall2 reads_as es es' -> forall m s, chord_go deref dd es' m s = chord_go deref dd es m s.
Proof.
  intros K F. induction F as [|u u' es es' H F IH]; intros m s; [reflexivity|]. inversion K as [|x1 x2 K1 K2]; subst.
  cbn [chord_go]. destruct (note_reads u u' K1 H) as [A B]. rewrite A, B. destruct (run1 u s) as [s1 []]; try reflexivity. cbn [seqo]. now apply IH.
Qed.
Lemma tame_reads u u' : tame u -> reads_as u u' -> forall s, run1 u' s = run1 u s.
Proof.
  intros K H s. destruct H; try contradiction; try reflexivity; try (now apply lisp_runs).
  rewrite !run_chord. destruct (apply_globals s) as [s1 []]; try reflexivity. cbn [seqo]. now apply chord_reads.
Qed.
Lemma tame_all us us' : Forall tame us -> Forall2 reads_as us us' -> forall s, runs us' s = runs us s.
Proof.
  intros K F. induction F as [|u u' us us' H F IH]; intros s; [reflexivity|]. inversion K as [|x1 x2 K1 K2]; subst.
  unfold ProofImporter.runs in *. cbn [each]. rewrite (tame_reads u u' K1 H). destruct (run1 u s) as [s1 []]; try reflexivity. cbn [seqo]. now apply IH.
Qed.
Lemma unled_tame us : Forall tame us -> Forall tame (unled us).
Proof. induction 1 as [|u us H F IH]; [constructor|]. destruct u; try (constructor; assumption). exact IH. Qed.
Lemma bars_notelike k u : notelike u -> notelike (add_bars k u).
Proof. destruct u as [[p [d|] s|[d|]|a|a]| | | | | | | | | | | | | | |]; auto. Qed.
Lemma on_last_notelike k es : Forall notelike es -> Forall notelike (on_last (add_bars k) es).
Proof. induction 1 as [|u es H F IH]; [constructor|]. cbn [on_last]. destruct es; constructor; auto using bars_notelike. Qed.
Lemma notelike_tame u : notelike u -> tame u.
Proof. destruct u as [[p d s|d|a|a]| | | | | | | | | | | | | | |]; intros H; exact I || exact (False_ind _ H). Qed.
Lemma absorb_tame u t : match u with UChord es => Forall notelike es | UBarline => True | _ => notelike u end -> Forall tame t -> Forall tame (absorb u t).
Proof.
  intros H F. assert (S : match u with UChord _ | UBarline => False | _ => notelike u end -> Forall tame (if ends_in_length u then add_bars (leading t) u :: unled t else u :: t)).
  { intros K. assert (K' : notelike u) by (destruct u; try contradiction; exact K). destruct (ends_in_length u); constructor; auto using unled_tame, notelike_tame, bars_notelike. }
  destruct u as [p| | | |l| | | | | | | | | | |]; try (apply S; exact H); try contradiction.
  - constructor; [exact I|exact F].
  - cbn [absorb]. destruct (ends_in_length (last l UNil)); constructor; auto using unled_tame. cbn. now apply on_last_notelike.
Qed.
Lemma read_tame us : Forall plain_event us -> Forall tame (as_read us).
Proof.
  induction 1 as [|u us H F IH]; [constructor|].
  assert (S : match u with UChord _ => False | UPrim (Attr (PTransp _)) => False | UBarline => True | _ => notelike u end -> Forall tame (as_read (u :: us))).
  { intros K. replace (as_read (u :: us)) with (absorb u (as_read us)) by (destruct u as [[p d s|d|[]|a]| | | | | | | | | | | | | | |]; try contradiction; reflexivity).
    apply absorb_tame; [|exact IH]. destruct u as [[p d s|d|[]|a]| | | | | | | | | | | | | | |]; try contradiction; exact I. }
  destruct u as [[p d s|d|a|a]| | | |es| | | | | | | | | | |]; try (apply S; exact I); try contradiction.
  - destruct a; try (apply S; exact I). constructor; [exact I|exact IH].
  - cbn [as_read]. destruct (chord_notelike es H) as (A & B & C). apply Forall_app. split; [eapply Forall_impl; [|exact A]; intros u; apply notelike_tame|].
    apply absorb_tame; [exact B|exact IH].
Qed.
Lemma voices_tame vs : Forall (plain_voice fmt) vs -> Forall tame (voices_updates (map voice_read vs)).
Proof.
  induction 1 as [|v vs [_ H] F IH]; [constructor|]. unfold voices_updates. cbn [map flat_map voice_read fst snd app]. constructor; [exact I|].
  apply Forall_app. split; [now apply read_tame|exact IH].
Qed.
Lemma score_tame ps : Forall (plain_part fmt) ps -> Forall tame (score_updates (map part_read ps)).
Proof.
  induction 1 as [|p ps (_ & _ & _ & Fe & Fg & Fl) F IH]; [constructor|]. unfold score_updates in *. cbn [map flat_map]. apply Forall_app. split; [|exact IH].
  constructor; [exact I|]. apply Forall_app. split; [now apply read_tame|]. apply Forall_app. split; [|now apply voices_tame].
  cbn [part_read w_groups]. clear -Fg. induction Fg as [|g gs (_ & V & E) F IH]; [constructor|]. cbn [map flat_map fst snd]. apply Forall_app. split; [|exact IH].
  apply Forall_app. split; [now apply voices_tame|]. constructor; [exact I|now apply read_tame].
Qed.
Lemma written_alike ps us : Forall (plain_part fmt) ps -> Forall in_range (score_updates ps) -> Forall2 reads_as (score_updates (map part_read ps)) us ->
  alikes (text (score_updates ps)) us.
Proof.
  intros F G H. eapply alikes_eq; [now apply score_alike|]. intros s. symmetry. apply tame_all; [now apply score_tame|exact H].
Qed.
End Plays.

Lemma xq_transp : forall k, - 2 ^ 31 <= k < 2 ^ 31 -> @integer XQ (nofZ k) = ROk k.
Proof.
  intros k H. unfold integer. change (@nofZ XQ k) with (Fin (whole k)). destruct (integer_check (whole k)) as [(z & Hz & E & -> & ->)|[Hn _]].
  - now rewrite (whole_inj _ _ E).
  - exfalso. apply Hn. now exists k.
Qed.
Theorem c69_plays : forall (fmt : xq -> list rune) cfg (order : list ModelPitch.letter) ps (s : @score XQ), (forall l, In l order) ->
  blank_text (c_indent cfg) -> Forall (plain_part fmt) ps -> Forall in_range (score_updates ps) -> ga_offs (globals s) = [] ->
  exists a txt us, generate order (score_updates ps) = ROk a /\ format fmt cfg a = Some txt /\ compile txt = ROk us /\
    let r := exec (SpecImporter.text_of (score_updates ps)) s in
    let r' := exec us s in
    events (fst r) = events (fst r') /\ snd r = snd r' /\ same_so_far (fst r) (fst r').
Proof.
  intros fmt cfg order ps s O B F G Q. destruct (@c69_text XQ fmt cfg order O ps B F) as (a & txt & us & H1 & H2 & H3 & H4).
  exists a, txt, us. split; [exact H1|]. split; [exact H2|]. split; [exact H3|]. cbv zeta.
  destruct (@written_alike XQ xq_zero xq_transp (run_deref 1) (dur_deref 1) fmt ps us F G H4 s s Q (R_refl s)) as [[A C] _].
  split; [exact (R_events _ _ A)|]. split; [exact C|]. apply same_R. apply R_weaken. exact A.
Qed.

(** What the importer's scores read as once they are written: the written text and
    the text with barlines in durations are the same. *)
From Coq Require Import String Ascii ZArith List Bool Lia.
From Verif Require Import Base Num ModelPitch ModelDuration ModelTypes ModelLisp ModelScan SpecScan ProofScan ModelParser SpecParser ProofParser ProofParseText
  ModelAst ModelFormat SpecFormat ProofFormat ProofFormatTok ProofFormatLisp ProofFormatNote ProofFormatEvent ProofFormatMain ProofFormatTop
  ModelGen SpecGen SpecImporter ProofGen ProofGen2 SpecWritten ProofWritten1 ProofWritten2 ProofWritten3.
Import ListNotations.
Local Open Scope string_scope.
Local Open Scope list_scope.
Local Open Scope Z_scope.

Section Written.
Context {N : Num}.
Variable fmt : num -> list rune.
Variable order : list ModelPitch.letter.
Notation u_node := (u_node order).
Notation v_node := (v_node order).
Notation p_node := (p_node order).
Notation gens := (gens order).
Notation read_note := (read_note fmt).
Notation read_more := (read_more fmt).
Notation read_event := (read_event fmt).
Notation read_voice := (read_voice fmt).
Notation read_part := (read_part fmt).
Notation plain_note := (plain_note fmt).
Notation chord_more := (chord_more fmt).
Notation plain_event := (plain_event fmt).
Notation event_ops := (event_ops fmt).
Notation events_ops := (events_ops fmt).

(** ** What is read is of the right form *)
Lemma dur_bars b d k : plain_duration fmt d -> (b = false -> k = O) ->
  read_duration fmt b (match d with Some cs => Some (cs ++ repeat CBar k) | None => None end).
Proof. destruct d as [cs|]; [|auto]. intros [NE F] K. exists cs, k. auto. Qed.
Lemma plain_read_dur b d : plain_duration fmt d -> read_duration fmt b d.
Proof. destruct d as [cs|]; [|auto]. intros [NE F]. exists cs, O. rewrite app_nil_r. auto. Qed.
Lemma plain_read u : plain_note u -> read_note u.
Proof.
  destruct u as [[p d s|d|x|x]| | | | | | | | | | | | | | |]; try contradiction; cbn.
  - destruct p; [|contradiction]. intros [A B]. split; [exact A|now apply plain_read_dur].
  - apply plain_read_dur.
Qed.
Lemma bars_read k u : plain_note u -> ends_in_length u = true -> read_note (add_bars k u).
Proof.
  destruct u as [[p d s|d|x|x]| | | | | | | | | | | | | | |]; try contradiction; cbn.
  - destruct p; [|contradiction]. intros [A B] E. destruct d as [cs|]; [|discriminate]. destruct s; [discriminate|]. split; [exact A|].
    apply (dur_bars true (Some cs) k B). discriminate.
  - intros B E. destruct d as [cs|]; [|discriminate]. apply (dur_bars true (Some cs) k B). discriminate.
Qed.
Lemma bars_end k u : ends_in_length (add_bars k u) = ends_in_length u.
Proof. destruct u as [[p d s|d|x|x]| | | | | | | | | | | | | | |]; try reflexivity; destruct d; reflexivity. Qed.
Lemma more_read t : chord_more t -> read_more t.
Proof.
  induction t as [|x t IH]; [auto|]. destruct t as [|y t]; [apply plain_read|]. intros [[H|H] M]; split; auto. left. now apply plain_read.
Qed.
Lemma last_read k t : chord_more t -> ends_in_length (last t UNil) = true -> read_more (on_last (add_bars k) t).
Proof.
  induction t as [|x t IH]; [auto|]. destruct t as [|y t]; [apply bars_read|]. intros [H M] E. specialize (IH M E).
  change (on_last (add_bars k) (x :: y :: t)) with (x :: on_last (add_bars k) (y :: t)). destruct (on_last (add_bars k) (y :: t)) as [|z l] eqn:El; [destruct IH|].
  split; [|exact IH]. destruct H; [left; now apply plain_read|now right].
Qed.
Lemma last_on_last f t : t <> [] -> last (on_last f t) UNil = f (last t UNil).
Proof.
  induction t as [|x t IH]; [congruence|]. intros _. destruct t as [|y t]; [reflexivity|]. change (on_last f (x :: y :: t)) with (x :: on_last f (y :: t)).
  specialize (IH ltac:(discriminate)). destruct (on_last f (y :: t)) as [|z l] eqn:El; [destruct t; discriminate|]. exact IH.
Qed.
Lemma unled_read t : Forall read_event t -> apart t -> Forall read_event (unled t) /\ apart (unled t) /\ match unled t with UBarline :: _ => False | _ => True end.
Proof.
  induction t as [|u t IH]; [repeat split; auto|]. intros F A. inversion F; subst. destruct A as [A1 A2].
  assert (D : u = UBarline \/ unled (u :: t) = u :: t /\ match u with UBarline => False | _ => True end) by (destruct u; auto).
  destruct D as [->|[-> D]]; [now apply IH|]. split; [exact F|]. split; [now split|]. destruct u; auto.
Qed.
Lemma octaves_apart os t : Forall octave_change os -> Forall read_event t -> apart t -> Forall read_event (os ++ t) /\ apart (os ++ t).
Proof.
  intros F Ft At. induction F as [|o os H F [IH1 IH2]]; [auto|]. destruct (octave_node o H) as [(k & -> & _)|[->| ->]]; (split; [constructor; [exact H|exact IH1]|]); (split; [discriminate|exact IH2]).
Qed.
Lemma absorb_plain u t : match u with UChord _ => False | _ => True end -> absorb u t = if ends_in_length u then add_bars (leading t) u :: unled t else u :: t.
Proof. destruct u; try reflexivity. contradiction. Qed.
Lemma note_event u : read_note u -> read_event u /\ ends u = ends_in_length u /\ match u with UChord _ => False | _ => True end.
Proof. destruct u as [[p d s|d|x|x]| | | | | | | | | | | | | | |]; try contradiction; cbn; auto. Qed.
Lemma add_chord k u : match u with UChord _ => False | _ => True end -> match add_bars k u with UChord _ => False | _ => True end.
Proof. destruct u as [[p d s|d|x|x]| | | | | | | | | | | | | | |]; auto; destruct d; auto. Qed.
(** The cases of a written event. *)
Lemma plain_cases u : plain_event u -> plain_note u \/ (exists es, u = UChord es /\ plain_chord fmt es) \/
  (exists k, u = UPrim (Attr (PTransp k)) /\ fmt (nofZ k) = itoa k /\ exists neg, reads_back fmt neg (nofZ k)) \/
  (read_event u /\ ends u = false /\ ends_in_length u = false /\ match u with UChord _ | UPrim (Attr (PTransp _)) => False | _ => True end).
Proof.
  destruct u as [[p d s|d|x|x]| | | |es| | | | | | | | | | |]; try contradiction; cbn; auto.
  - intros H. destruct x; try contradiction; try (right; right; right; split; [exact H|split; [reflexivity|split; [reflexivity|exact I]]]). right; right; left. eauto.
  - right; right; right. repeat split.
  - right; left. eauto.
Qed.
Lemma read_plain u t : plain_note u \/ match u with UChord _ | UPrim (Attr (PTransp _)) => False | _ => True end -> as_read (u :: t) = absorb u (as_read t).
Proof. intros [H|H]; destruct u as [[p d s|d|x|x]| | | |es| | | | | | | | | | |]; try contradiction; try reflexivity; destruct x; try contradiction; reflexivity. Qed.

Lemma reads_right l : Forall plain_event l -> Forall read_event (as_read l) /\ apart (as_read l).
Proof.
  induction 1 as [|u l H F [IH IA]]; [split; [constructor|exact I]|]. destruct (unled_read _ IH IA) as (U1 & U2 & U3).
  destruct (plain_cases u H) as [P|[(es & -> & Po & Pc)|[(k & -> & Pf & neg & Pr)|(R & E1 & E2 & D)]]].
  - rewrite read_plain by auto. destruct (note_event u (plain_read u P)) as (R & En & D). rewrite absorb_plain by exact D. destruct (ends_in_length u) eqn:E.
    + pose proof (bars_read (leading (as_read l)) u P E) as Rb. destruct (note_event _ Rb) as (Rb' & _ & _). split; [now constructor|]. split; [intros _; exact U3|exact U2].
    + split; [now constructor|]. split; [congruence|exact IA].
  - cbn [as_read]. destruct (snd (split_octaves es)) as [|n t]; [contradiction|]. destruct Pc as [Pn Pm]. cbn [absorb].
    assert (NE : t <> []) by (destruct t; [contradiction|discriminate]).
    assert (L : last (n :: t) UNil = last t UNil) by (destruct t; [congruence|reflexivity]). rewrite L. destruct (ends_in_length (last t UNil)) eqn:E.
    + assert (X : on_last (add_bars (leading (as_read l))) (n :: t) = n :: on_last (add_bars (leading (as_read l))) t) by (destruct t; [congruence|reflexivity]). rewrite X.
      apply octaves_apart; [exact Po| |split; [intros _; exact U3|exact U2]]. constructor; [|exact U1]. split; [now apply plain_read|now apply last_read].
    + apply octaves_apart; [exact Po| |split; [cbn [ends]; rewrite L; congruence|exact IA]]. constructor; [|exact IH]. split; [now apply plain_read|now apply more_read].
  - cbn [as_read]. split; [constructor; [|exact IH]; eexists; split; [reflexivity|now exists neg]|]. split; [discriminate|exact IA].
  - rewrite read_plain by auto. rewrite absorb_plain by (destruct u; auto). rewrite E2. split; [now constructor|]. split; [congruence|exact IA].
Qed.

(** ** The same is printed *)
Definition bar_ops (k : nat) : list fop := repeat (FWrite [rn "|"]) k.
Lemma oapp_assoc {A} (a b c : option (list A)) : oapp (oapp a b) c = oapp a (oapp b c).
Proof. destruct a, b, c; cbn; try reflexivity. now rewrite app_assoc. Qed.
Lemma oapp_nil {A} (a : option (list A)) : oapp a (Some []) = a.
Proof. destruct a; [cbn; now rewrite app_nil_r|reflexivity]. Qed.
Lemma oapp_some {A} (x y : list A) c : oapp (Some x) (oapp (Some y) c) = oapp (Some (x ++ y)) c.
Proof. destruct c; cbn; [now rewrite app_assoc|reflexivity]. Qed.
Lemma events_ops_app a b : events_ops (a ++ b) = oapp (events_ops a) (events_ops b).
Proof. induction a as [|c a IH]; [cbn; now destruct (events_ops b)|]. cbn [app ModelFormat.events_ops]. now rewrite IH, oapp_assoc. Qed.

Lemma only_bars k : forall text tie, duration_ops fmt text tie [] (map comp_node (repeat CBar k)) = oapp (duration_ops fmt text tie [] []) (Some (bar_ops k)).
Proof.
  induction k as [|k IH]; intros text tie; [cbn [repeat map bar_ops]; now rewrite oapp_nil|]. cbn [repeat map comp_node duration_ops nty barline branch].
  rewrite IH. cbn [duration_ops nonempty_text oapp app]. unfold write_if, bar_ops. cbn [repeat].
  destruct (map comp_node (repeat CBar k)); rewrite ?app_nil_r; destruct (nonempty_text text); reflexivity.
Qed.
Lemma lens_bars k ls : Forall (plain_length fmt) ls -> forall text tie,
  duration_ops fmt text tie [] (map comp_node (ls ++ repeat CBar k)) = oapp (duration_ops fmt text tie [] (map comp_node ls)) (Some (bar_ops k)).
Proof.
  induction 1 as [|c ls H F IH]; intros text tie; [apply only_bars|]. destruct c as [x j| | | | |]; try contradiction. cbn [app map comp_node duration_ops nty branch].
  destruct (length_text fmt _); [apply IH|reflexivity].
Qed.
Lemma note_bars k u : plain_note u -> ends_in_length u = true -> event_ops (u_node (add_bars k u)) = oapp (event_ops (u_node u)) (Some (bar_ops k)) /\
  is_note_or_rest (u_node (add_bars k u)) = is_note_or_rest (u_node u).
Proof.
  intros P E. pose proof (bars_read k u P E) as R. pose proof (plain_read u P) as R0. destruct u as [[p d s|d|x|x]| | | | | | | | | | | | | | |]; try contradiction.
  - destruct p as [l a|]; [|contradiction]. destruct d as [cs|]; [|discriminate]. destruct s; [discriminate|]. destruct P as [_ [NE F]]. destruct R as [_ R]. destruct R0 as [_ R0].
    unfold ProofWritten1.u_node. cbn [add_bars gen gen_prim]. rewrite (gen_dur fmt _ _ R), (gen_dur fmt _ _ R0). cbn [rmap rbind dur_nodes app]. split; [|reflexivity].
    cbn [ModelFormat.event_ops branch]. unfold note_ops. cbn [List.length existsb is_tie nty orb Z.of_nat]. unfold with_duration.
    match goal with |- context [pitch_text ?n] => destruct (pitch_text n) as [pt|]; [|reflexivity] end. apply lens_bars, F.
  - destruct d as [cs|]; [|discriminate]. destruct P as [NE F]. unfold ProofWritten1.u_node. cbn [add_bars gen gen_prim]. rewrite (gen_dur fmt _ _ R), (gen_dur fmt _ _ R0). cbn [rmap rbind dur_nodes]. split; [|reflexivity].
    cbn [ModelFormat.event_ops branch]. unfold with_duration. apply lens_bars, F.
Qed.
Lemma unled_ops t : events_ops (map u_node t) = oapp (Some (bar_ops (leading t))) (events_ops (map u_node (unled t))).
Proof.
  induction t as [|u t IH]; [reflexivity|].
  assert (D : u = UBarline \/ (unled (u :: t) = u :: t /\ leading (u :: t) = O)) by (destruct u; auto).
  destruct D as [->|[-> ->]]; [|cbn [bar_ops repeat]; destruct (events_ops (map u_node (u :: t))); reflexivity].
  cbn [leading unled map ModelFormat.events_ops]. rewrite IH. change (event_ops (u_node UBarline)) with (Some [FWrite [rn "|"]]). rewrite oapp_some. reflexivity.
Qed.
Fixpoint chord_ops (l : list node) : option (list fop) :=
  match l with
  | [] => Some []
  | c :: t =>
      oapp (event_ops c)
           (oapp (Some (if is_note_or_rest c && existsb is_note_or_rest t then [FWrite [rn "/"]] else [])) (chord_ops t))
  end.
Lemma chord_unfold c l : event_ops (branch ChordNode (c :: l)) = chord_ops (c :: l).
Proof. reflexivity. Qed.
Lemma chord_bars k es : chord_more es -> ends_in_length (last es UNil) = true ->
  chord_ops (map u_node (on_last (add_bars k) es)) = oapp (chord_ops (map u_node es)) (Some (bar_ops k)) /\
  existsb is_note_or_rest (map u_node (on_last (add_bars k) es)) = existsb is_note_or_rest (map u_node es).
Proof.
  induction es as [|x es IH]; [contradiction|]. destruct es as [|y es].
  - intros P E. destruct (note_bars k x P E) as [A B]. cbn [on_last map chord_ops existsb]. rewrite A, B. rewrite !andb_false_r. cbn [oapp app]. rewrite !oapp_nil. auto.
  - intros [H M] E. destruct (IH M E) as [A B]. change (on_last (add_bars k) (x :: y :: es)) with (x :: on_last (add_bars k) (y :: es)).
    change (map u_node (x :: on_last (add_bars k) (y :: es))) with (u_node x :: map u_node (on_last (add_bars k) (y :: es))).
    change (map u_node (x :: y :: es)) with (u_node x :: map u_node (y :: es)).
    cbn [chord_ops existsb]. rewrite A, B, !oapp_assoc. auto.
Qed.
Lemma octaves_ops os l : Forall octave_change os -> chord_ops (map u_node os ++ l) = oapp (events_ops (map u_node os)) (chord_ops l).
Proof.
  induction 1 as [|o os H F IH]; [cbn; now destruct (chord_ops l)|]. cbn [map app chord_ops ModelFormat.events_ops]. rewrite IH, oapp_assoc.
  replace (is_note_or_rest (u_node o)) with false by (destruct (octave_node o H) as [(k & -> & _)|[->| ->]]; reflexivity). cbn [andb]. destruct (oapp (events_ops (map u_node os)) (chord_ops l)); reflexivity.
Qed.
Lemma split_app es : es = fst (split_octaves es) ++ snd (split_octaves es).
Proof.
  induction es as [|u es IH]; [reflexivity|]. destruct u as [[p d s|d|x|x]| | | | | | | | | | | | | | |]; try reflexivity. destruct x; try reflexivity.
  cbn [split_octaves]. destruct (split_octaves es). cbn in *. now rewrite <- IH.
Qed.
Lemma octave_gens os : Forall octave_change os -> Forall gens os.
Proof. apply Forall_impl. intros o H. destruct (octave_node o H) as [(k & -> & _)|[->| ->]]; (split; [exact I|reflexivity]). Qed.
Lemma chord_node es : plain_chord fmt es -> Forall gens es /\ u_node (UChord es) = branch ChordNode (map u_node es).
Proof.
  intros [Po Pc]. assert (G : Forall gens es).
  { rewrite (split_app es). apply Forall_app. split; [now apply octave_gens|]. destruct (snd (split_octaves es)) as [|n t]; [constructor|]. destruct Pc as [Pn Pm].
    constructor; [now apply (note_gens fmt), plain_read|now apply (more_gens fmt), more_read]. }
  split; [exact G|]. unfold ProofWritten1.u_node at 1. rewrite (chord_gens order es G). reflexivity.
Qed.
Lemma plain_gens u : plain_event u -> gens u.
Proof.
  intros H. destruct (plain_cases u H) as [P|[(es & -> & P)|[(k & -> & _)|(R & _)]]].
  - now apply (note_gens fmt), plain_read.
  - destruct (chord_node es P) as [G E]. split; [exact I|]. rewrite E. now apply chord_gens.
  - split; [exact I|reflexivity].
  - now apply (reads fmt order).
Qed.
Lemma sub_chord es : Forall gens es -> u_node (UChord es) = branch ChordNode (map u_node es).
Proof. intros G. unfold ProofWritten1.u_node at 1. rewrite (chord_gens order es G). reflexivity. Qed.
Lemma same_ops l : Forall plain_event l -> events_ops (map u_node (as_read l)) = events_ops (map u_node l).
Proof.
  induction 1 as [|u l H F IH]; [reflexivity|].
  destruct (plain_cases u H) as [P|[(es & -> & Po & Pc)|[(k & -> & Pf & neg & Pr)|(R & E1 & E2 & D)]]].
  - rewrite read_plain by auto. destruct (note_event u (plain_read u P)) as (R & En & D). rewrite absorb_plain by exact D. destruct (ends_in_length u) eqn:E.
    + destruct (note_bars (leading (as_read l)) u P E) as [A _]. cbn [map ModelFormat.events_ops]. rewrite A, <- IH, (unled_ops (as_read l)), oapp_assoc. reflexivity.
    + cbn [map ModelFormat.events_ops]. now rewrite IH.
  - destruct (chord_node es (conj Po Pc)) as [_ En]. cbn [as_read]. pose proof (split_app es) as Es.
    assert (E0 : event_ops (u_node (UChord es)) = oapp (events_ops (map u_node (fst (split_octaves es)))) (chord_ops (map u_node (snd (split_octaves es))))).
    { rewrite En. transitivity (chord_ops (map u_node es)).
      - destruct es as [|e es]; [contradiction Pc|]. apply chord_unfold.
      - rewrite Es at 1. rewrite map_app. now apply octaves_ops. }
    cbn [map ModelFormat.events_ops]. rewrite E0. rewrite map_app, events_ops_app, oapp_assoc. f_equal.
    destruct (snd (split_octaves es)) as [|n t]; [contradiction|]. destruct Pc as [Pn Pm]. cbn [absorb].
    assert (NE : t <> []) by (destruct t; [contradiction|discriminate]).
    assert (L : last (n :: t) UNil = last t UNil) by (destruct t; [congruence|reflexivity]). rewrite L.
    pose proof (note_gens fmt order n (plain_read n Pn)) as Gn. destruct (ends_in_length (last t UNil)) eqn:E.
    + set (k := leading (as_read l)).
      assert (X : on_last (add_bars k) (n :: t) = n :: on_last (add_bars k) t) by (destruct t; [congruence|reflexivity]). rewrite X.
      cbn [map ModelFormat.events_ops]. rewrite sub_chord by (constructor; [exact Gn|now apply (more_gens fmt), last_read]). cbn [map]. rewrite chord_unfold.
      destruct (chord_bars k t Pm E) as [A B]. cbn [chord_ops]. rewrite A, B, <- IH, (unled_ops (as_read l)), !oapp_assoc. reflexivity.
    + cbn [map ModelFormat.events_ops]. rewrite sub_chord by (constructor; [exact Gn|now apply (more_gens fmt), more_read]). cbn [map]. rewrite chord_unfold, IH. reflexivity.
  - cbn [as_read map ModelFormat.events_ops]. rewrite IH. f_equal.
    change (u_node (UPrim (Attr (PTransp k)))) with (branch (N := N) LispListNode [leaf LispSymbolNode (LitText (runes "transpose")); leaf LispNumberNode (LitInt k)]).
    change (u_node (ULisp [LSym "transpose"; LNum (nofZ k)])) with (branch (N := N) LispListNode [leaf LispSymbolNode (LitText (runes_of "transpose")); leaf LispNumberNode (LitNum (nofZ k))]).
    cbn [ModelFormat.event_ops lisp_text branch leaf]. rewrite Pf. reflexivity.
  - rewrite read_plain by auto. rewrite absorb_plain by (destruct u; auto). rewrite E2. cbn [map ModelFormat.events_ops]. now rewrite IH.
Qed.
End Written.

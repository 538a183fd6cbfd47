(** Proof of C48, second part: a rewriting of the events of a voice that is
    right for single events and chords is right for whole voices. *)
From Coq Require Import ZArith List String Bool Lia Arith.
From Verif Require Import Base Num ModelPitch ModelDuration ModelInstruments ModelTypes ModelLisp
  ModelScore ModelImporter SpecScore SpecVars SpecParts SpecSolo SpecTiming SpecImporter ProofHeap ProofStep ProofInv ProofEvents
  ProofVoices ProofVars ProofSafe ProofTracks ProofSolo ProofTiming ProofImporter.
Import ListNotations.
Local Open Scope list_scope.

Ltac e1_fields H :=
  apply e1_intro; cbn;
  first [apply (e1_name _ _ H)|apply (e1_stock _ _ H)|apply (e1_master _ _ H)|apply (e1_tempo _ _ H)
        |apply (e1_key _ _ H)|apply (e1_transp _ _ H)|apply (e1_ref _ _ H)|apply (e1_cur _ _ H)|apply (e1_last _ _ H)
        |apply (e1_octave _ _ H)|apply (e1_vol _ _ H)|apply (e1_tvol _ _ H)|apply (e1_pan _ _ H)|apply (e1_chan _ _ H)
        |apply (e1_explicit _ _ H)|apply (e1_quant _ _ H)|apply (e1_dur _ _ H)|apply (e1_scale _ _ H)|apply (e1_tvals _ _ H)
        |apply (e1_rep _ _ H)|apply (e1_tmpl _ _ H)|apply (e1_origin _ _ H)|apply (e1_voices _ _ H)|idtac].

Section Skel.
Context {N : Num} {FG : Forget}.
Variable deref : string -> score -> score * outcome.
Variable dd : list (string * list update) -> string -> part -> dres.
Notation run1 := (run_upd deref dd).
Notation runs := (runs deref dd).

(** How an event sounds once written out: octave changes at the head of a
    chord come before the chord, and a repeat that was never closed is played
    once. *)
Fixpoint srun (u : update) : score -> score * outcome :=
  let go := (fix go (l : list update) (s : score) : score * outcome :=
               match l with [] => (s, Ok) | e :: t => seqo (srun e s) (go t) end) in
  match u with
  | UChord es => fun s => seqo (runs (fst (split_octaves es)) s) (run1 (UChord (snd (split_octaves es))))
  | URepeat (USeq es) n => fun s =>
      seqo (run_times (go es) 1 (Z.to_nat (close_times n)) s)
           (fun s => if (close_times n =? max_int32)%Z then (s, Hang) else (s, Ok))
  | UOnReps rs (USeq es) => fun s => onreps_loop rs (go es) 0 (List.length (current s)) s
  | USeq es => go es
  | _ => run1 u
  end.
Fixpoint sruns (l : list update) (s : score) : score * outcome :=
  match l with [] => (s, Ok) | e :: t => seqo (srun e s) (sruns t) end.
Lemma srun_rep : forall es n s, srun (URepeat (USeq es) n) s =
  seqo (run_times (sruns es) 1 (Z.to_nat (close_times n)) s)
       (fun s => if (close_times n =? max_int32)%Z then (s, Hang) else (s, Ok)).
Proof. reflexivity. Qed.
Lemma srun_on : forall es rs s, srun (UOnReps rs (USeq es)) s = onreps_loop rs (sruns es) 0 (List.length (current s)) s.
Proof. reflexivity. Qed.
Lemma srun_seq : forall es s, srun (USeq es) s = sruns es s.
Proof. intros es s. destruct es; reflexivity. Qed.
Lemma srun_chord : forall es s, srun (UChord es) s = seqo (runs (fst (split_octaves es)) s) (run1 (UChord (snd (split_octaves es)))).
Proof. reflexivity. Qed.
Lemma sruns_app : forall a b s, sruns (a ++ b) s = seqo (sruns a s) (sruns b).
Proof.
  induction a as [|x a IH]; intros b s; cbn [app sruns]; [reflexivity|].
  destruct (srun x s) as [s1 o1]. destruct o1; cbn [seqo]; try reflexivity. apply IH.
Qed.
Lemma sruns_one : forall u s, sruns [u] s = srun u s.
Proof. intros u s. cbn [sruns]. destruct (srun u s) as [s1 []]; reflexivity. Qed.

(** Single events: notes, rests, mild attributes, barlines. *)
Definition flat (u : update) : bool :=
  match u with
  | UPrim (Note _ _ _) | UPrim (Rest _) | UBarline => true
  | UPrim (Attr a) => mild a
  | _ => false
  end.
Lemma srun_flat : forall u s, flat u = true -> srun u s = run1 u s.
Proof. intros u s H. destruct u; try discriminate H; reflexivity. Qed.

(** Events made of single events with [F] and chords with [C]. *)
Fixpoint evt (F : update -> Prop) (C : list update -> Prop) (u : update) : Prop :=
  let all := (fix go (l : list update) : Prop := match l with [] => True | x :: t => evt F C x /\ go t end) in
  match u with
  | UChord es => C es
  | URepeat (USeq es) _ => all es
  | UOnReps _ (USeq es) => all es
  | USeq es => all es
  | _ => flat u = true /\ F u
  end.
Fixpoint evts (F : update -> Prop) (C : list update -> Prop) (l : list update) : Prop :=
  match l with [] => True | x :: t => evt F C x /\ evts F C t end.
Lemma evt_seq : forall F C es, evts F C es -> evt F C (USeq es).
Proof. intros F C. induction es as [|x es IH]; intros H; [exact I|]. split; [apply H|apply IH, H]. Qed.
Lemma evts_app : forall F C a b, evts F C (a ++ b) <-> evts F C a /\ evts F C b.
Proof. intros F C a b. induction a as [|x a IH]; cbn [app evts]; tauto. Qed.

(** Repeats and endings. *)
Lemma each_prep_like : forall r l s t, R s t -> RR (each (fun p s => (modp p (set_prep r) s, Ok)) l s) (each (fun p s => (modp p (set_prep r) s, Ok)) l t) /\
  kept s (fst (each (fun p s => (modp p (set_prep r) s, Ok)) l s)).
Proof.
  intros r l s t H. split; [|apply kept_each; intros p s1; cbn [fst]; apply kept_modp; reflexivity].
  revert s t H. induction l as [|p l IH]; intros s t H; [split; [exact H|reflexivity]|]. cbn [each seqo]. apply IH.
  apply R_modp; [exact H|]. pose proof (R_getp _ _ p H) as E. e1_fields E. reflexivity.
Qed.
Definition simf (b : bool) (k : keysig) (f g : score -> score * outcome) : Prop :=
  forall s t, playing b k s -> R s t -> RR (f s) (g t) /\ (snd (f s) = Ok -> kept s (fst (f s))).
Lemma times_like : forall b k f g n r, simf b k f g -> simf b k (run_times f r n) (run_times g r n).
Proof.
  intros b k f g n r H. revert r. induction n as [|n IH]; intros r s t P Q; cbn [run_times].
  { split; [split; [exact Q|reflexivity]|]. intros _. apply kept_refl. }
  rewrite <- (R_current _ _ Q).
  destruct (each_prep_like r (current s) s t Q) as [A K].
  set (a := each _ _ s) in *. set (c := each _ _ t) in *. destruct a as [s1 o1], c as [t1 o1']. destruct A as [A B]. cbn [fst snd] in *. subst o1'.
  destruct o1; cbn [seqo fst snd]; try (split; [split; [exact A|reflexivity]|]; discriminate).
  pose proof (kept_playing _ _ _ _ K P) as P1. destruct (H s1 t1 P1 A) as [C D].
  destruct (f s1) as [s2 o2], (g t1) as [t2 o2']. destruct C as [C E]. cbn [fst snd] in *. subst o2'.
  destruct o2; cbn [seqo fst snd]; try (split; [split; [exact C|reflexivity]|]; discriminate).
  specialize (D eq_refl). pose proof (kept_playing _ _ _ _ D P1) as P2. destruct (IH (r + 1)%Z s2 t2 P2 C) as [X Y].
  split; [exact X|]. intros O. eapply kept_trans; [exact K|]. eapply kept_trans; [exact D|]. apply Y, O.
Qed.
Lemma onreps_like : forall b k f g rs n i, simf b k f g -> simf b k (onreps_loop rs f i n) (onreps_loop rs g i n).
Proof.
  intros b k f g rs n i H. revert i. induction n as [|n IH]; intros i s t P Q; cbn [onreps_loop].
  { split; [split; [exact Q|reflexivity]|]. intros _. apply kept_refl. }
  rewrite <- (R_current _ _ Q). destruct (nth_error (current s) i) as [p|]; [|split; [split; [exact Q|reflexivity]|]; intros _; apply kept_refl].
  pose proof (R_getp _ _ p Q) as E. rewrite <- (e1_rep _ _ E). destruct (applies_to rs _).
  - destruct (H s t P Q) as [C D]. destruct (f s) as [s2 o2], (g t) as [t2 o2']. destruct C as [C F]. cbn [fst snd] in *. subst o2'.
    destruct o2; cbn [seqo fst snd]; try (split; [split; [exact C|reflexivity]|]; discriminate).
    specialize (D eq_refl). destruct (IH (S i) s2 t2 (kept_playing _ _ _ _ D P) C) as [X Y].
    split; [exact X|]. intros O. eapply kept_trans; [exact D|]. apply Y, O.
  - cbn [seqo]. apply IH; assumption.
Qed.

(* ------------------------- chords ------------------------- *)

(** The events of a chord, with the shortest lengths so far. *)
Fixpoint cgo (l : list update) (m : list (pid * num)) (s : score) : list (pid * num) * (score * outcome) :=
  match l with
  | [] => (m, (s, Ok))
  | e :: t => match run1 e s with
              | (s1, Ok) => cgo t (lower_shortest (written_dur e) s m) s1
              | r => (m, r)
              end
  end.
Lemma chord_cgo : forall l m s, chord_go deref dd l m s =
  seqo (snd (cgo l m s)) (fun s1 => chord_finish (fst (cgo l m s)) (set_chordmode false s1)).
Proof.
  induction l as [|e l IH]; intros m s; cbn [chord_go cgo]; [reflexivity|].
  destruct (run1 e s) as [s1 o1]. destruct o1; cbn [seqo fst snd]; try reflexivity. apply IH.
Qed.
Lemma cgo_app : forall a c m s, snd (snd (cgo a m s)) = Ok -> cgo (a ++ c) m s = cgo c (fst (cgo a m s)) (fst (snd (cgo a m s))).
Proof.
  induction a as [|e a IH]; intros c m s H; cbn [app cgo] in *; [reflexivity|].
  destruct (run1 e s) as [s1 o1]. destruct o1; cbn [fst snd] in *; try discriminate H. apply IH, H.
Qed.
Lemma cgo_stop : forall a c m s, snd (snd (cgo a m s)) <> Ok -> cgo (a ++ c) m s = cgo a m s.
Proof.
  induction a as [|e a IH]; intros c m s H; cbn [app cgo] in *; [contradiction H; reflexivity|].
  destruct (run1 e s) as [s1 o1]. destruct o1; cbn [fst snd] in *; try reflexivity. apply IH, H.
Qed.
Lemma cgo_runs : forall l m s, snd (cgo l m s) = runs l s.
Proof.
  induction l as [|e l IH]; intros m s; cbn [cgo]; [reflexivity|]. unfold ProofImporter.runs. cbn [each].
  destruct (run1 e s) as [s1 o1]. destruct o1; cbn [seqo]; try reflexivity. apply IH.
Qed.

Section Pass.
Variable b : bool.
Variable k : keysig.
Variable St : Type.
Variable T : St -> update -> St * list update.
Variables pre post : St -> St.
Variables F F' : update -> Prop.
Variables C C' : list update -> Prop.
Variable SI : St -> Prop.
Variable Tr : St -> score -> Prop.
Fixpoint TL (o : St) (l : list update) : St * list update :=
  match l with
  | [] => (o, [])
  | x :: t => (fst (TL (fst (T o x)) t), snd (T o x) ++ snd (TL (fst (T o x)) t))
  end.
Hypothesis T_rep : forall o es n, T o (URepeat (USeq es) n) = (post (fst (TL (pre o) es)), [URepeat (USeq (snd (TL (pre o) es))) n]).
Hypothesis T_on : forall o es rs, T o (UOnReps rs (USeq es)) = (post (fst (TL (pre o) es)), [UOnReps rs (USeq (snd (TL (pre o) es)))]).
Hypothesis T_seq : forall o es, T o (USeq es) = (post (fst (TL (pre o) es)), [USeq (snd (TL (pre o) es))]).
Hypothesis SI_pre : forall o, SI o -> SI (pre o).
Hypothesis SI_post : forall o, SI o -> SI (post o).
Hypothesis Tr_pre : forall o t, SI o -> Tr (pre o) t.
Hypothesis Tr_post : forall o t, SI o -> Tr (post o) t.

Definition sim (u : update) : Prop := forall o s t, SI o -> playing b k s -> R s t -> Tr o t ->
  RR (srun u s) (sruns (snd (T o u)) t) /\
  (snd (srun u s) = Ok -> kept s (fst (srun u s)) /\ Tr (fst (T o u)) (fst (sruns (snd (T o u)) t))).
Definition simL (l : list update) : Prop := forall o s t, SI o -> playing b k s -> R s t -> Tr o t ->
  RR (sruns l s) (sruns (snd (TL o l)) t) /\
  (snd (sruns l s) = Ok -> kept s (fst (sruns l s)) /\ Tr (fst (TL o l)) (fst (sruns (snd (TL o l)) t))).
Definition good (u : update) : Prop := forall o, SI o -> SI (fst (T o u)) /\ evts F' C' (snd (T o u)).
Definition goodL (l : list update) : Prop := forall o, SI o -> SI (fst (TL o l)) /\ evts F' C' (snd (TL o l)).

Hypothesis base_good : forall u, flat u = true -> F u -> good u.
Hypothesis base_goodc : forall es, C es -> good (UChord es).
Hypothesis base_sim : forall u, flat u = true -> F u -> sim u.
Hypothesis base_simc : forall es, C es -> sim (UChord es).

Lemma list_good : forall l, Forall good l -> goodL l.
Proof.
  induction 1 as [|x l Hx Hl IH]; intros o O; cbn [TL fst snd]; [split; [exact O|exact I]|].
  destruct (Hx o O) as [A B]. destruct (IH _ A) as [D E]. split; [exact D|]. apply evts_app. auto.
Qed.
Lemma list_sim : forall l, Forall good l -> Forall sim l -> simL l.
Proof.
  induction l as [|x l IH]; intros G S o s t O P Q W; cbn [TL fst snd sruns].
  { split; [split; [exact Q|reflexivity]|]. intros _. split; [apply kept_refl|exact W]. }
  inversion G; inversion S; subst. rewrite sruns_app. destruct (H5 o s t O P Q W) as [[A B] D].
  destruct (H1 o O) as [O1 _]. destruct (srun x s) as [s1 o1], (sruns (snd (T o x)) t) as [t1 o1']. cbn [fst snd] in *. subst o1'.
  destruct o1; cbn [seqo fst snd]; try (split; [split; [exact A|reflexivity]|]; discriminate).
  destruct (D eq_refl) as [K W1]. destruct (IH H2 H6 (fst (T o x)) s1 t1 O1 (kept_playing _ _ _ _ K P) A W1) as [X Y].
  split; [exact X|]. intros Z. destruct (Y Z) as [Y1 Y2]. split; [eapply kept_trans; eassumption|exact Y2].
Qed.

Definition inner_good (u : update) : Prop := match u with USeq es => goodL es | _ => True end.
Definition inner_sim (u : update) : Prop := match u with USeq es => simL es | _ => True end.

Lemma evts_all : forall es, (fix go (l : list update) : Prop := match l with [] => True | x :: t => evt F C x /\ go t end) es -> Forall (evt F C) es.
Proof. induction es as [|x es IH]; intros H; constructor; [apply H|apply IH, H]. Qed.
Lemma evts_forall : forall es, evts F C es -> Forall (evt F C) es.
Proof. induction es as [|x es IH]; intros H; constructor; [apply H|apply IH, H]. Qed.

Lemma all_good : forall u, evt F C u -> good u /\ inner_good u.
Proof.
  induction u using update_ind'; intros H0; cbn [evt inner_good] in *;
    try (destruct H0 as [H0 H1]; split; [apply base_good; assumption|exact I]; fail).
  - split; [apply base_goodc, H0|exact I].
  - split; [|exact I]. destruct u; try (destruct H0 as [H0 _]; discriminate H0).
    destruct (IHu H0) as [_ G]. intros o O. rewrite T_rep. cbn [fst snd].
    destruct (G (pre o) (SI_pre _ O)) as [A B]. split; [apply SI_post, A|]. cbn [evts]. split; [|exact I]. apply evt_seq in B. exact B.
  - split; [|exact I]. destruct u; try (destruct H0 as [H0 _]; discriminate H0).
    destruct (IHu H0) as [_ G]. intros o O. rewrite T_on. cbn [fst snd].
    destruct (G (pre o) (SI_pre _ O)) as [A B]. split; [apply SI_post, A|]. cbn [evts]. split; [|exact I]. apply evt_seq in B. exact B.
  - assert (G : goodL es).
    { apply list_good. apply evts_all in H0. rewrite Forall_forall in *. intros x Hx. apply (H x Hx), H0, Hx. }
    split; [|exact G]. intros o O. rewrite T_seq. cbn [fst snd].
    destruct (G (pre o) (SI_pre _ O)) as [A B]. split; [apply SI_post, A|]. cbn [evts]. split; [|exact I]. apply evt_seq, B.
Qed.
Lemma all_sim : forall u, evt F C u -> sim u /\ inner_sim u.
Proof.
  induction u using update_ind'; intros H0; cbn [evt inner_sim] in *;
    try (destruct H0 as [H0 H1]; split; [apply base_sim; assumption|exact I]; fail).
  - split; [apply base_simc, H0|exact I].
  - split; [|exact I]. destruct u; try (destruct H0 as [H0 _]; discriminate H0).
    destruct (IHu H0) as [_ G]. destruct (all_good (USeq es) H0) as [_ GG]. intros o s t O P Q W. rewrite T_rep. cbn [fst snd]. rewrite sruns_one, !srun_rep.
    set (es' := snd (TL (pre o) es)).
    assert (S : simf b k (sruns es) (sruns es')).
    { intros s1 t1 P1 Q1. destruct (G (pre o) s1 t1 (SI_pre _ O) P1 Q1 (Tr_pre _ _ O)) as [X Y]. split; [exact X|]. intros Z. apply Y, Z. }
    destruct (times_like b k _ _ (Z.to_nat (close_times n)) 1 S s t P Q) as [[A B] D].
    destruct (run_times _ _ _ s) as [s1 o1], (run_times _ _ _ t) as [t1 o1']. cbn [fst snd] in *. subst o1'.
    destruct o1; cbn [seqo fst snd]; try (split; [split; [exact A|reflexivity]|]; discriminate).
    destruct (_ =? _)%Z; cbn [fst snd]; (split; [split; [exact A|reflexivity]|]); [discriminate|]. intros _. split; [apply D; reflexivity|].
    apply Tr_post. apply GG, SI_pre, O.
  - split; [|exact I]. destruct u; try (destruct H0 as [H0 _]; discriminate H0).
    destruct (IHu H0) as [_ G]. destruct (all_good (USeq es) H0) as [_ GG]. intros o s t O P Q W. rewrite T_on. cbn [fst snd]. rewrite sruns_one, !srun_on.
    set (es' := snd (TL (pre o) es)).
    assert (S : simf b k (sruns es) (sruns es')).
    { intros s1 t1 P1 Q1. destruct (G (pre o) s1 t1 (SI_pre _ O) P1 Q1 (Tr_pre _ _ O)) as [X Y]. split; [exact X|]. intros Z. apply Y, Z. }
    rewrite <- (R_current _ _ Q).
    destruct (onreps_like b k _ _ rs (List.length (current s)) 0 S s t P Q) as [A D]. split; [exact A|]. intros Z. split; [apply D, Z|].
    apply Tr_post. apply GG, SI_pre, O.
  - pose proof (evts_all _ H0) as H1.
    assert (GG : Forall good es) by (rewrite Forall_forall in *; intros x Hx; apply all_good, H1, Hx).
    assert (G : simL es).
    { apply list_sim; [exact GG|]. rewrite Forall_forall in *. intros x Hx. apply (H x Hx), H1, Hx. }
    split; [|exact G]. intros o s t O P Q W. rewrite T_seq. cbn [fst snd]. rewrite sruns_one, !srun_seq.
    destruct (G (pre o) s t (SI_pre _ O) P Q (Tr_pre _ _ O)) as [A D]. split; [exact A|]. intros Z. split; [apply D, Z|].
    apply Tr_post. apply (list_good _ GG), SI_pre, O.
Qed.

Theorem pass_good : forall l, evts F C l -> goodL l.
Proof. intros l H. apply list_good. apply evts_forall in H. rewrite Forall_forall in *. intros x Hx. apply all_good, H, Hx. Qed.
Theorem pass_sim : forall l, evts F C l -> simL l.
Proof.
  intros l H. apply evts_forall in H. rewrite Forall_forall in *.
  apply list_sim; rewrite Forall_forall; intros x Hx; [apply all_good, H, Hx|apply all_sim, H, Hx].
Qed.
(** Chords: element by element, keeping track of the shortest lengths. *)
Hypothesis Tr_same : forall o t t', current t' = current t -> keeps poctave t t' -> keeps pdur t t' -> Tr o t -> Tr o t'.
Hypothesis base_m : forall u o s t m, flat u = true -> F u -> SI o -> playing b k s -> R s t -> Tr o t -> covered t m ->
  snd (run1 u s) = Ok ->
  fst (cgo (snd (T o u)) m t) = lower_shortest (written_dur u) s m /\
  covered (fst (snd (cgo (snd (T o u)) m t))) (fst (cgo (snd (T o u)) m t)).
Hypothesis flat_out : forall u o, flat u = true -> F u -> SI o -> Forall (fun v => flat v = true) (snd (T o u)).

Lemma sruns_flat : forall l s, Forall (fun v => flat v = true) l -> sruns l s = runs l s.
Proof.
  induction l as [|x l IH]; intros s H; [reflexivity|]. inversion H; subst. cbn [sruns]. unfold ProofImporter.runs. cbn [each].
  rewrite srun_flat by assumption. destruct (run1 x s) as [s1 o1]. destruct o1; cbn [seqo]; try reflexivity. apply IH. assumption.
Qed.
Lemma sim_flat : forall u o s t, flat u = true -> F u -> SI o -> playing b k s -> R s t -> Tr o t ->
  RR (run1 u s) (runs (snd (T o u)) t) /\
  (snd (run1 u s) = Ok -> kept s (fst (run1 u s)) /\ Tr (fst (T o u)) (fst (runs (snd (T o u)) t))).
Proof.
  intros u o s t H1 H2 O P Q W. destruct (base_sim u H1 H2 o s t O P Q W) as [A B].
  rewrite srun_flat in A, B by exact H1. rewrite sruns_flat in A, B by (apply flat_out; assumption). auto.
Qed.

Lemma rest_sim : forall l, Forall (fun u => flat u = true /\ F u) l -> forall o s t m, SI o -> playing b k s -> R s t -> Tr o t -> covered t m ->
  RR (snd (cgo l m s)) (snd (cgo (snd (TL o l)) m t)) /\
  (snd (snd (cgo l m s)) = Ok -> fst (cgo l m s) = fst (cgo (snd (TL o l)) m t) /\ kept s (fst (snd (cgo l m s)))).
Proof.
  induction 1 as [|u l [Hu Fu] Hl IH]; intros o s t m O P Q W V; cbn [TL fst snd cgo].
  { split; [split; [exact Q|reflexivity]|]. intros _. split; [reflexivity|apply kept_refl]. }
  destruct (sim_flat u o s t Hu Fu O P Q W) as [[A B] D]. pose proof (base_m u o s t m Hu Fu O P Q W V) as M.
  destruct (base_good u Hu Fu o O) as [O1 _].
  rewrite <- (cgo_runs _ m) in A, B, D.
  destruct (run1 u s) as [s1 o1]. cbn [fst snd] in *.
  destruct o1; try (rewrite cgo_stop by (rewrite <- B; discriminate); split; [split; [exact A|exact B]|]; discriminate).
  rewrite cgo_app by (symmetry; exact B). destruct (M eq_refl) as [M1 M2]. destruct (D eq_refl) as [K W1].
  specialize (IH (fst (T o u)) s1 (fst (snd (cgo (snd (T o u)) m t))) (fst (cgo (snd (T o u)) m t)) O1 (kept_playing _ _ _ _ K P) A W1 M2).
  rewrite M1 in IH at 1 3 4 5. rewrite M1 in IH. destruct IH as [X Y]. rewrite M1. split; [exact X|]. intros Z. destruct (Y Z) as [Y1 Y2]. split; [exact Y1|]. eapply kept_trans; eassumption.
Qed.

Lemma chord_sim : forall e e' o1 rest s t, playing b k s -> R s t -> SI o1 -> Forall (fun u => flat u = true /\ F u) rest ->
  (forall s1 t1 m, playing b k s1 -> R s1 t1 -> kept t t1 -> keeps poctave t t1 -> keeps pdur t t1 ->
     RR (run1 e s1) (runs e' t1) /\
     (snd (run1 e s1) = Ok -> kept s1 (fst (run1 e s1)) /\ Tr o1 (fst (runs e' t1)) /\
        fst (cgo e' m t1) = lower_shortest (written_dur e) s1 m /\ covered (fst (runs e' t1)) (fst (cgo e' m t1)))) ->
  RR (run1 (UChord (e :: rest)) s) (run1 (UChord (e' ++ snd (TL o1 rest))) t) /\
  (snd (run1 (UChord (e :: rest)) s) = Ok -> kept s (fst (run1 (UChord (e :: rest)) s))).
Proof.
  intros e e' o1 rest s t P Q O Hr First. rewrite !run_chord.
  destruct (apply_none s (proj1 P)) as [s1 [E1 [R1 [K1 F1]]]]. rewrite E1.
  pose proof (R_playing _ _ _ _ Q P) as P'. destruct (apply_none t (proj1 P')) as [t1 [E2 [R2 [K2 F2]]]]. rewrite E2. cbn [seqo].
  assert (Q1 : R s1 t1) by (eapply R_trans; [exact R1|]; eapply R_trans; [exact Q|]; apply R_sym, R2).
  rewrite <- (R_current _ _ Q1). set (m := map _ (current s1)).
  assert (Q2 : R (set_chordmode true s1) (set_chordmode true t1)) by (apply R_set_chordmode, Q1).
  assert (Ks : kept s (set_chordmode true s1)) by (eapply kept_trans; [exact K1|]; constructor; reflexivity).
  assert (Kt : kept t (set_chordmode true t1)) by (eapply kept_trans; [exact K2|]; constructor; reflexivity).
  pose proof (kept_playing _ _ _ _ Ks P) as P2.
  destruct (First _ _ m P2 Q2 Kt) as [[A B] D].
  { intros q. apply F2. reflexivity. } { intros q. apply F2. reflexivity. }
  rewrite !chord_cgo. cbn [cgo].
  rewrite <- (cgo_runs _ m) in A, B, D.
  destruct (run1 e (set_chordmode true s1)) as [s2 o2]. cbn [fst snd] in *.
  destruct o2; try (rewrite cgo_stop by (rewrite <- B; discriminate); destruct (snd (cgo e' m _)) as [t2 o2']; cbn [fst snd] in *; subst o2'; cbn [seqo]; split; [split; [exact A|reflexivity]|]; discriminate).
  rewrite cgo_app by (symmetry; exact B). destruct (D eq_refl) as [K3 [W1 [M1 M2]]].
  pose proof (rest_sim rest Hr o1 s2 (fst (snd (cgo e' m (set_chordmode true t1)))) (fst (cgo e' m (set_chordmode true t1))) O (kept_playing _ _ _ _ K3 P2) A W1 M2) as X.
  rewrite M1 in *. destruct X as [[X1 X2] Y].
  set (r := cgo rest _ s2) in *. set (r' := cgo (snd (TL o1 rest)) _ _) in *. destruct r as [m3 [s3 o3]], r' as [m3' [t3 o3']]. cbn [fst snd] in *. subst o3'.
  destruct o3; cbn [seqo]; try (split; [split; [exact X1|reflexivity]|]; discriminate).
  destruct (Y eq_refl) as [-> K4]. destruct (finish_like m3' _ _ (R_set_chordmode _ _ false X1)) as [Z1 Z2].
  split; [split; [exact Z1|exact Z2]|]. intros _.
  eapply kept_trans; [exact Ks|]. eapply kept_trans; [exact K3|]. eapply kept_trans; [exact K4|].
  eapply kept_trans; [|apply finish_kept]. constructor; reflexivity.
Qed.
End Pass.

End Skel.

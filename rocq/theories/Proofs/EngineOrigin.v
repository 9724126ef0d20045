(** * Where the convolvers in the engine come from and what they were fed *)
From Verif.Model Require Import Base Arith Juce Float32 SmoothedValue Convolver ConvolutionEngine Loader.
From Verif.Spec Require Import Transform Signal Engine Loading Together.
From Verif.Proofs Require Import Lists Blocks Streams FFTProof FadeProof SmoothProof EngineProof EngineInv EngineFront EngineCalm EngineRun.

Lemma ending_nil {T} (l : list T) : ending [] l. Proof. exists l. now rewrite app_nil_r. Qed.
Lemma ending_snoc {T} (p l : list T) x : ending p l -> ending (p ++ [x]) (l ++ [x]).
Proof. intros [z ->]. exists z. now rewrite app_assoc. Qed.

Lemma sessions_app {St Bl} (process : St -> Bl -> res (St * Bl)) reset : forall a s b,
  feed_sessions process reset s (a ++ b)
  = (' (s1, o1) <- feed_sessions process reset s a ;;
     ' (s2, o2) <- feed_sessions process reset s1 b ;; Ok (s2, o1 ++ o2)).
Proof.
  induction a as [|x a IH]; intros s b; cbn [app feed_sessions bind].
  - destruct (feed_sessions process reset s b) as [[]| |]; reflexivity.
  - destruct (feed process s x) as [[s1 o1]| |]; cbn [bind]; try reflexivity. rewrite IH.
    destruct (feed_sessions process reset (reset s1) a) as [[s2 o2]| |]; cbn [bind]; try reflexivity.
    destruct (feed_sessions process reset s2 b) as [[s3 o3]| |]; reflexivity.
Qed.
Lemma feed_split {St Bl} (process : St -> Bl -> res (St * Bl)) : forall a s b,
  feed process s (a ++ b) = (' (s1, o1) <- feed process s a ;; ' (s2, o2) <- feed process s1 b ;; Ok (s2, o1 ++ o2)).
Proof.
  induction a as [|x a IH]; intros s b; cbn [app feed bind].
  - destruct (feed process s b) as [[]| |]; reflexivity.
  - destruct (process s x) as [[s1 o1]| |]; cbn [bind]; try reflexivity. rewrite IH.
    destruct (feed process s1 a) as [[s2 o2]| |]; cbn [bind]; try reflexivity.
    destruct (feed process s2 b) as [[s3 o3]| |]; reflexivity.
Qed.

Section Origin.
  Context {A : arith} (I : conv_if A).
  Notation engine := (engine I).
  Notation held := (held I).
  Notation front := (front I).
  Notation front_of := (front_of I).
  Variable w : nat.
  Variable ok : cv I -> Prop.
  Hypothesis Hw : 0 < w.
  Hypothesis HI : accepting I w ok.
  (** delivered *)
  Variable D : held -> Prop.

  (** ** the queue *)
  Definition dq (e : engine) : Prop :=
    Forall D (e_commands I e) /\ forall a, In a (e_env I e) -> forall h, In (Deliver I h) a -> D h.
  Lemma act_dq e a : (forall h, a = Deliver I h -> D h) -> dq e -> dq (act I e a).
  Proof.
    intros Ha [H1 H2]. destruct a as [h| |]; cbn [act].
    - destruct (_ <? _); split; ecbn; auto. apply Forall_app. auto.
    - destruct (e_notes I e); split; ecbn; auto.
    - split; ecbn; auto.
  Qed.
  Lemma acts_dq l : forall e, (forall h, In (Deliver I h) l -> D h) -> dq e -> dq (acts I l e).
  Proof.
    unfold acts. induction l as [|a l IH]; intros e Hl H; auto. cbn [fold_left]. apply IH; [intros h Hh; apply Hl; now right|].
    apply act_dq; auto. intros h ->. apply Hl. now left.
  Qed.
  Lemma interrupt_dq e : dq e -> dq (interrupt I e).
  Proof.
    intros [H1 H2]. unfold interrupt. destruct (e_env I e) as [|l t] eqn:E; [split; auto; rewrite E; auto|].
    apply acts_dq; [apply H2; now left|]. split; ecbn; auto. intros a Ha. apply H2. now right.
  Qed.
  Lemma push_note_dq n e : dq e -> dq (push_note I n e).
  Proof. intros H. apply interrupt_dq in H. unfold push_note. destruct (_ <? _); exact H. Qed.
  Lemma begin_fade_dq e e' : eng_begin_fade I e = Ok e' -> dq e -> dq e'.
  Proof.
    unfold eng_begin_fade. destruct (e_fade I e); [|discriminate]. destruct (e_bounds I e); [|discriminate].
    destruct (fade_of _ _ _) as [[s n]| |]; cbn [bind]; intros H; try discriminate. now injection H as <-.
  Qed.
  Lemma ready_dq e h e' : eng_ready I e h = Ok e' -> dq e -> dq e'.
  Proof.
    unfold eng_ready. intros E H. destruct (e_conv I e) as [c|] eqn:Ec; [|injection E as <-; exact H]. cbv zeta in E.
    assert (H1 : dq (match e_pending I e with Some p => push_note I (Some p) (set_slots I (Some c) (e_fade I e) None e) | None => e end)).
    { destruct (e_pending I e); auto. now apply push_note_dq. }
    set (e1 := match e_pending I e with Some p => _ | None => e end) in *. clearbody e1.
    destruct (e_fade I e1); [injection E as <-; exact H1|]. apply (begin_fade_dq _ _ E). exact H1.
  Qed.
  Lemma service_n_dq n : forall e e', eng_service_n I n e = Ok e' -> dq e -> dq e'.
  Proof.
    induction n as [|n IH]; intros e e' E H; cbn [eng_service_n] in E; [now injection E as <-|]. cbv zeta in E.
    apply interrupt_dq in H. set (e1 := interrupt I e) in *. clearbody e1.
    destruct (e_commands I e1) as [|h t] eqn:Ec; try discriminate.
    destruct (eng_ready I _ h) as [e2| |] eqn:E2; cbn [bind] in E; try discriminate.
    apply (IH _ _ E). apply (ready_dq _ _ _ E2). destruct H as [H1 H2]. rewrite Ec in H1. inversion H1; subst. split; auto.
  Qed.
  Lemma service_dq e e' : eng_service I e = Ok e' -> dq e -> dq e'.
  Proof.
    unfold eng_service. intros E H. destruct (eng_service_n I _ e) as [e1| |] eqn:E1; cbn [bind] in E; try discriminate.
    injection E as <-. apply (service_n_dq _ _ _ E1), interrupt_dq in H. exact H.
  Qed.
  Lemma finish_dq e e' : eng_finish I e = Ok e' -> dq e -> dq e'.
  Proof.
    unfold eng_finish. cbv zeta. intros E H.
    assert (H1 : dq (push_note I (e_conv I e) (set_slots I None (e_fade I e) (e_pending I e) e))) by now apply push_note_dq.
    set (e1 := push_note I _ _) in *. clearbody e1. ecbn_in E. destruct (e_pending I e1) as [p|].
    - apply (begin_fade_dq _ _ E). exact H1.
    - injection E as <-. exact H1.
  Qed.
  Lemma process_dq e b e' o : eng_process I e b = Ok (e', o) -> dq e -> dq e'.
  Proof.
    unfold eng_process. intros E H. destruct (eng_service I e) as [e1| |] eqn:E1; cbn [bind] in E; try discriminate.
    apply (service_dq _ _ E1) in H. clear E1. destruct (e_fade I e1) as [f|].
    - assert (X : forall e2 o2, (match e_strategy I e1 with kCrossfade => eng_crossfade I e1 b | kInOut => eng_in_out I e1 b end) = Ok (e2, o2) -> dq e2).
      { intros e2 o2. destruct (e_strategy I e1).
        - unfold eng_in_out. destruct (sm_smoothing _); destruct (proc I _ _) as [[c1 o1]| |]; cbn [bind]; try discriminate;
            destruct (blk_multiply_by _ _); intros X; injection X as <- <-; exact H.
        - unfold eng_crossfade. destruct (view_sub _ _ _); cbn [bind]; try discriminate. destruct (blk_copy_from _ _ _); cbn [bind]; try discriminate.
          destruct (view_read _ _); cbn [bind]; try discriminate. destruct (proc I _ _) as [[c1 o1]| |]; cbn [bind]; try discriminate.
          destruct (proc I _ _) as [[c2 o3]| |]; cbn [bind]; try discriminate. destruct (blk_multiply_by _ _). destruct (blk_multiply_by _ _).
          destruct (blk_add _ _ _); cbn [bind]; try discriminate. destruct (blk_copy_from _ _ _); cbn [bind]; try discriminate.
          intros X; injection X as <- <-; exact H. }
      destruct (match e_strategy I e1 with kCrossfade => _ | kInOut => _ end) as [[e2 o2]| |]; cbn [bind] in E; try discriminate.
      specialize (X _ _ eq_refl). destruct (sm_smoothing _); cbn [bind] in E; [now injection E as <- <-|].
      destruct (eng_finish I e2) as [e3| |] eqn:E3; cbn [bind] in E; try discriminate. injection E as <- <-. now apply (finish_dq _ _ E3).
    - destruct (proc I _ _) as [[c1 o1]| |]; cbn [bind] in E; try discriminate. injection E as <- <-. exact H.
  Qed.
  Lemma reset_dq e e' : eng_reset I e = Ok e' -> dq e -> dq e'.
  Proof.
    unfold eng_reset. intros E H. destruct (eng_service I _) as [e1| |] eqn:E1; cbn [bind] in E; try discriminate. injection E as <-.
    apply (service_dq _ _ E1) in H; clear E1. cbv zeta. ecbn. destruct (e_pending I e1), (e_fade I e1); ecbn; try exact H. destruct (e_conv I e1); exact H.
  Qed.
  Lemma step_dq o e e' x : eng_step I e o = Ok (e', x) -> (forall a, o = Others I a -> forall h, In (Deliver I h) a -> D h) -> dq e -> dq e'.
  Proof.
    intros E Ho H. destruct o as [s|b| | |a]; cbn [eng_step] in E.
    - unfold eng_prepare in E. destruct (engine_bounds s) as [bd| |]; cbn [bind] in E; try discriminate.
      destruct (eng_reset I _) as [e1| |] eqn:E1; cbn [bind] in E; try discriminate. injection E as <- <-. now apply (reset_dq _ _ E1).
    - destruct (eng_process I e b) as [[e1 o1]| |] eqn:E1; cbn [bind] in E; try discriminate. injection E as <- <-. now apply (process_dq _ _ _ _ E1).
    - destruct (eng_reset I e) as [e1| |] eqn:E1; cbn [bind] in E; try discriminate. injection E as <- <-. now apply (reset_dq _ _ E1).
    - unfold eng_clear in E. destruct (eng_reset I _) as [e1| |] eqn:E1; cbn [bind] in E; try discriminate. injection E as <- <-. now apply (reset_dq _ _ E1).
    - injection E as <- <-. apply acts_dq; auto. now apply Ho.
  Qed.

  (** ** the slots *)
  Definition origin (bs : list (audio A)) (h : held) : Prop :=
    exists h0 history past, D h0 /\ grown h0 history past h /\ ending past bs /\ forall s, In s history -> forall b, In b s -> In b bs.
  Definition origino bs (o : option held) : Prop := forall h, o = Some h -> origin bs h.
  Lemma origin_new bs h : D h -> origin bs h.
  Proof.
    intros H. exists h, [], []. split; auto. split; [split; auto; exists (h_cv I h), [], []; auto|]. split; [apply ending_nil|]. intros ? [].
  Qed.
  Lemma origin_reset bs h : origin bs h -> origin bs {| h_id := h_id I h; h_cv := cv_reset I (h_cv I h) |}.
  Proof.
    intros (h0 & hist & past & H1 & (H2 & c & o1 & o2 & E1 & E2) & [z Hz] & H3). exists h0, (hist ++ [past]), []. split; auto. split.
    - split; auto. exists (cv_reset I (h_cv I h)), (o1 ++ [o2]), []. split; auto. rewrite sessions_app, E1. cbn [bind feed_sessions]. rewrite E2. reflexivity.
    - split; [apply ending_nil|]. intros s Hs b Hb. apply in_app_iff in Hs as [Hs|[<-|[]]]; [eapply H3; eauto|]. rewrite Hz. apply in_app_iff. auto.
  Qed.
  Lemma origin_proc bs h b c o : cv_process I (h_cv I h) b = Ok (c, o) -> origin bs h -> origin (bs ++ [b]) {| h_id := h_id I h; h_cv := c |}.
  Proof.
    intros E (h0 & hist & past & H1 & (H2 & c0 & o1 & o2 & E1 & E2) & Hz & H3). exists h0, hist, (past ++ [b]). split; auto. split.
    - split; auto. exists c0, o1, (o2 ++ [o]). split; auto. rewrite feed_split, E2. cbn [bind feed]. rewrite E. reflexivity.
    - split; [now apply ending_snoc|]. intros s Hs x Hx. apply in_app_iff. left. eapply H3; eauto.
  Qed.

  Definition fstate (bs : list (audio A)) (F : front) : Prop :=
    (forall p, f_pend I F = Some p -> D p) /\
    (forall f, f_fade I F = Some f -> origin bs f) /\
    (forall f, f_fade I F = Some f -> f_strat I F = kInOut -> 0 < sm_count (f_out I F) -> D f) /\
    (f_fade I F = None \/ f_strat I F = kCrossfade \/ 0 < sm_count (f_out I F) -> origino bs (f_conv I F)).

  Ltac fsp := split; [|split; [|split]].
  Lemma start_fstate bs b h F : D h -> origino bs (f_conv I F) -> fstate bs (start I b h F).
  Proof.
    intros Hh Hc. unfold fstate, start. cbn [f_pend f_fade f_strat f_out f_conv].
    split; [discriminate|]. split; [intros f E; injection E as <-; now apply origin_new|]. split; [intros f E _ _; now injection E as <-|]. auto.
  Qed.
  Lemma take_fstate bs b F h : D h -> fstate bs F -> fstate bs (take I b F h).
  Proof.
    intros Hh (H1 & H2 & H3 & H4). unfold take. destruct (f_conv I F) as [c|] eqn:Ec.
    - destruct (f_fade I F) as [f|] eqn:Ef.
      + fsp; cbn [f_pend f_fade f_strat f_out f_conv]; auto. intros p E. now injection E as <-.
      + apply start_fstate; auto. rewrite Ec. apply H4. now left.
    - fsp; cbn [f_pend f_fade f_strat f_out f_conv]; auto. intros _ x E. injection E as <-. now apply origin_new.
  Qed.
  Lemma takes_fstate bs b l : forall F, Forall D l -> fstate bs F -> fstate bs (takes I b l F).
  Proof.
    induction l as [|h l IH]; intros F Hl HF; auto. inversion Hl; subst. cbn [takes fold_left]. apply IH; auto. now apply take_fstate.
  Qed.
  Lemma proc_inv (o : option held) b o' out : proc I o b = Ok (o', out) -> forall bs, origino bs o -> origino (bs ++ [b]) o'.
  Proof.
    unfold proc. destruct o as [h|]; [|intros E bs _; injection E as <- <-; intros ? ?; discriminate].
    destruct (cv_process I (h_cv I h) b) as [[c x]| |] eqn:Ep; cbn [bind]; intros E; try discriminate. injection E as <- <-.
    intros bs H h' E'. injection E' as <-. eapply origin_proc; eauto.
  Qed.
  Lemma check_fstate bs b F : fstate bs F -> fstate bs (check I b F).
  Proof.
    intros HF. unfold check. destruct (sm_smoothing _); auto. destruct HF as (H1 & H2 & H3 & H4). unfold fin.
    assert (H5 : origino bs (f_fade I F)) by (intros f E; auto).
    destruct (f_pend I F) as [p|] eqn:Ep; [apply start_fstate; auto|].
    fsp; cbn [f_pend f_fade f_strat f_out f_conv]; try discriminate. intros _. exact H5.
  Qed.
  Lemma one_block_fstate bs bd m b F F' o : one_block I w bd m b F F' o -> fstate bs F -> fstate (bs ++ [b]) F'.
  Proof.
    intros H (H1 & H2 & H3 & H4). destruct H as [c' o Ef E _|f c' oa f' ob Ef Es E1 _ E2 _|f c' oa Ef Es Ho E1 _|f f' ob Ef Es Ho E2 _].
    - fsp; cbn [with_slots f_pend f_fade f_strat f_out f_conv]; auto; try discriminate. intros _. apply (proc_inv _ _ _ _ E). apply H4. now left.
    - apply check_fstate. fsp; cbn [with_slots with_smooth f_pend f_fade f_strat f_out f_conv]; auto.
      + intros g E. apply (proc_inv _ _ _ _ E2 bs); auto. intros g' E'. injection E' as <-. auto.
      + intros g _ X. congruence.
      + intros _. apply (proc_inv _ _ _ _ E1). apply H4. auto.
    - apply check_fstate. fsp; cbn [with_slots with_smooth f_pend f_fade f_strat f_out f_conv]; auto.
      + intros g E. injection E as <-. apply origin_new. auto.
      + intros g E _ _. injection E as <-. auto.
      + intros _. apply (proc_inv _ _ _ _ E1). apply H4. auto.
    - apply check_fstate. fsp; cbn [with_slots with_smooth f_pend f_fade f_strat f_out f_conv]; auto.
      + intros g E. apply (proc_inv _ _ _ _ E2 bs); auto. intros g' E'. injection E' as <-. auto.
      + intros g _ _ X. rewrite Ho in X. lia.
      + intros [X|[X|X]]; [discriminate|congruence|lia].
  Qed.
  Lemma rest_fstate bs F : fstate bs F -> fstate bs (rest I F).
  Proof.
    intros (H1 & H2 & H3 & H4). fsp; cbn [rest f_pend f_fade f_strat f_out f_conv sm_set sm_count]; auto; try (intros; lia).
    intros [X|[X|X]]; [auto|auto|lia].
  Qed.
  Lemma settle_fstate bs F : fstate bs F -> fstate bs (settle I F).
  Proof.
    intros (H1 & H2 & H3 & H4). unfold settle.
    assert (R : forall o, origino bs o -> origino bs (reset_conv I o)).
    { intros [h|] Ho h' E; cbn in E; [|discriminate]. injection E as <-. apply origin_reset. auto. }
    destruct (f_pend I F) as [p|] eqn:Ep; [|destruct (f_fade I F) as [f|] eqn:Ef];
      fsp; cbn [f_pend f_fade f_strat f_out f_conv]; auto; try discriminate; intros _; apply R.
    - intros x E. injection E as <-. apply origin_new. auto.
  Qed.

  (** ** histories *)
  Definition jnv bs e := dq e /\ fstate bs (front_of e).
  Lemma jnv_step p bs e o e' x : tracked I w ok p e -> legal I w ok (option_map ps_max_block p) [o] ->
    (forall a, o = Others I a -> forall h, In (Deliver I h) a -> D h) ->
    eng_step I e o = Ok (e', x) -> jnv bs e -> jnv (bs ++ blocks_in I [o]) e'.
  Proof.
    intros HT HL Ho E [HQ HF]. split; [eapply step_dq; eauto|]. pose proof HQ as [HQ1 _].
    destruct o as [s|b| | |l]; cbn [eng_step legal blocks_in flat_map app] in *; rewrite ?app_nil_r.
    - destruct (prepare_front I w ok Hw HI p e s) as (b & e1 & news & Eb & E1 & H1 & F1 & N1 & X1); try tauto.
      rewrite E1 in E. cbn [bind] in E. injection E as <- <-. rewrite F1. now apply settle_fstate, takes_fstate, rest_fstate.
    - destruct HL as [(M & m & EM & Hm & Hb) _]. destruct p as [s|]; [|discriminate]. cbn in EM. injection EM as <-.
      destruct HT as ((Hch & HM & Hr) & bd & Ebd & He).
      destruct (process_front I w ok Hw HI _ bd e m b He HM Hm Hb) as (e1 & o & news & E1 & H1 & _ & OB & N1 & X1).
      rewrite E1 in E. cbn [bind] in E. injection E as <- <-. apply (one_block_fstate _ _ _ _ _ _ _ OB). now apply takes_fstate.
    - destruct p as [s|]; [|now destruct HL]. destruct HT as (HS & bd & Ebd & He).
      destruct (reset_front I w ok Hw HI _ bd e He) as (e1 & news & E1 & H1 & F1 & N1 & X1).
      rewrite E1 in E. cbn [bind] in E. injection E as <- <-. rewrite F1. now apply settle_fstate, takes_fstate, rest_fstate.
    - destruct p as [s|]; [|now destruct HL]. destruct HT as (HS & bd & Ebd & He).
      destruct (clear_front I w ok Hw HI _ bd e He) as (e1 & news & E1 & H1 & F1 & _).
      rewrite E1 in E. cbn [bind] in E. injection E as <- <-. cbv zeta in F1. rewrite F1.
      assert (S : fstate bs (settle I (takes I bd (e_commands I e) (rest I (front_of e))))) by now apply settle_fstate, takes_fstate, rest_fstate.
      set (F := settle I _) in *. clearbody F. destruct S as (S1 & S2 & S3 & S4).
      fsp; cbn [f_pend f_fade f_strat f_out f_conv]; auto; try discriminate.
    - injection E as <- <-.
      destruct (acts_slots I l e) as (G1 & G2 & G3 & G4 & G5 & G6 & G7 & G8 & G9).
      assert (EF : front_of (acts I l e) = front_of e) by (unfold EngineFront.front_of; congruence). now rewrite EF.
  Qed.
  Lemma tracked_step p e o e' x : tracked I w ok p e -> legal I w ok (option_map ps_max_block p) [o] ->
    eng_step I e o = Ok (e', x) -> tracked I w ok (last_spec p [o]) e'.
  Proof.
    intros HT HL E. destruct o as [s|b| | |l]; cbn [eng_step last_spec legal] in *.
    - destruct (prepare_front I w ok Hw HI p e s) as (b & e1 & news & Eb & E1 & H1 & _); try tauto.
      rewrite E1 in E. cbn [bind] in E. injection E as <- <-. split; [tauto|eauto].
    - destruct HL as [(M & m & EM & Hm & Hb) _]. destruct p as [s|]; [|discriminate]. cbn in EM. injection EM as <-.
      destruct HT as ((Hch & HM & Hr) & bd & Ebd & He).
      destruct (process_front I w ok Hw HI _ bd e m b He HM Hm Hb) as (e1 & o & news & E1 & H1 & _).
      rewrite E1 in E. cbn [bind] in E. injection E as <- <-. split; [split; auto|eauto].
    - destruct p as [s|]; [|now destruct HL]. destruct HT as (HS & bd & Ebd & He).
      destruct (reset_front I w ok Hw HI _ bd e He) as (e1 & news & E1 & H1 & _).
      rewrite E1 in E. cbn [bind] in E. injection E as <- <-. split; [auto|eauto].
    - destruct p as [s|]; [|now destruct HL]. destruct HT as (HS & bd & Ebd & He).
      destruct (clear_front I w ok Hw HI _ bd e He) as (e1 & news & E1 & H1 & _).
      rewrite E1 in E. cbn [bind] in E. injection E as <- <-. split; [auto|eauto].
    - destruct (step_ok I w ok Hw HI (Others I l) (option_map ps_max_block p) e HL (tracked_ok I w ok p e HT)) as (e1 & x1 & E1 & T1 & _).
      cbn [eng_step] in E1. injection E as <- <-. injection E1 as <- <-.
      destruct (acts_slots I l e) as (G1 & G2 & G3 & G4 & G5 & G6 & G7 & G8 & G9).
      destruct p as [s|]; cbn [tracked option_map] in *; [|exact T1].
      destruct HT as (HS & bd & Ebd & [HS1 HQ]). split; auto. exists bd. split; auto. destruct T1 as (_ & b1 & [_ HQ1]). split; auto.
      eapply sok_same; eauto.
  Qed.
  Lemma jnv_run : forall l p bs e e' outs, tracked I w ok p e -> legal I w ok (option_map ps_max_block p) l ->
    (forall a, In (Others I a) l -> forall h, In (Deliver I h) a -> D h) ->
    eng_run I e l = Ok (e', outs) -> jnv bs e -> jnv (bs ++ blocks_in I l) e'.
  Proof.
    induction l as [|o l IH]; intros p bs e e' outs HT HL HD E HJ.
    - cbn in *. injection E as <- <-. now rewrite app_nil_r.
    - apply (legal_cons I w ok) in HL as [Ho HL]. cbn [eng_run] in E.
      destruct (eng_step I e o) as [[e2 x]| |] eqn:E1; cbn [bind] in E; try discriminate.
      destruct (eng_run I e2 l) as [[e3 xs]| |] eqn:E2; cbn [bind] in E; try discriminate. injection E as <- <-.
      rewrite (last_spec_prepared I p o) in HL.
      replace (bs ++ blocks_in I (o :: l)) with ((bs ++ blocks_in I [o]) ++ blocks_in I l).
      + apply (IH (last_spec p [o]) _ e2 e3 xs); auto.
        * eapply tracked_step; eauto.
        * intros a Ha. apply HD. now right.
        * apply (jnv_step p bs e o e2 x); auto. intros a ->. apply HD. now left.
      + unfold blocks_in. cbn [flat_map]. rewrite app_nil_r. now rewrite <- app_assoc.
  Qed.
  Lemma jnv_new env : (forall a, In a env -> forall h, In (Deliver I h) a -> D h) -> jnv [] (eng_new I env).
  Proof.
    intros H. split; [split; [constructor|exact H]|]. fsp; cbn; try discriminate.
  Qed.
End Origin.

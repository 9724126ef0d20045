(** * C68: the background thread cannot change the sound *)
From Verif.Model Require Import Base Arith ArithReal ArithMod Juce Float32 SmoothedValue Convolver ConvolutionEngine.
From Verif.Spec Require Import Transform Signal Engine Schedules.
From Verif.Proofs Require Import Lists Blocks SmoothProof Param EngineProof EngineInv.
From Verif.Props Require Import EngineProps.

Section Alike.
  Context {A : arith} (I : conv_if A).
  Notation engine := (engine I).
  Notation held := (held I).

  (** everything is the same except the notification queue, who destroyed what, and what the background thread will do *)
  Record alike (e e' : engine) : Prop := {
    a_conv : e_conv I e = e_conv I e';
    a_fade : e_fade I e = e_fade I e';
    a_pend : e_pending I e = e_pending I e';
    a_in : e_in I e = e_in I e';
    a_out : e_out I e = e_out I e';
    a_buf : e_buffer I e = e_buffer I e';
    a_bounds : e_bounds I e = e_bounds I e';
    a_strat : e_strategy I e = e_strategy I e';
    a_cmds : e_commands I e = e_commands I e';
    a_busy : e_cmd_busy I e = e_cmd_busy I e';
    a_env : same_pushes I (e_env I e) (e_env I e');
    a_log : arrivals (e_log I e) = arrivals (e_log I e')
  }.
  Lemma arrivals_app l l' : arrivals (l ++ l') = arrivals l ++ arrivals l'.
  Proof. unfold arrivals. apply filter_app. Qed.
  Lemma arrivals_destroy t o : arrivals (destroy I t o) = [].
  Proof. now destruct o. Qed.
  Lemma alike_refl e : alike e e.
  Proof. split; auto. now intros n. Qed.
  Lemma alike_trans e1 e2 e3 : alike e1 e2 -> alike e2 e3 -> alike e1 e3.
  Proof. intros [] []. split; try congruence; intros n; now rewrite (a_env0 n). Qed.
  Lemma alike_sym e1 e2 : alike e1 e2 -> alike e2 e1.
  Proof. intros []. split; auto. now intros n. Qed.

  (** the background thread leaves everything else alone *)
  Definition pushes_only (l : list (action I)) : list (action I) := map (Deliver I) (pushed I l).
  Lemma act_alike e e' h : alike e e' -> alike (act I e (Deliver I h)) (act I e' (Deliver I h)).
  Proof.
    intros []. cbn [act]. rewrite a_cmds0, a_busy0. destruct (_ <? _); split; ecbn; auto; rewrite ?arrivals_app; congruence.
  Qed.
  Lemma act_background e a : (forall h, a <> Deliver I h) -> alike (act I e a) e.
  Proof.
    intros H. destruct a as [h| |]; cbn [act]; [now elim (H h)| |].
    - destruct (e_notes I e) as [|n t]; [apply alike_refl|]. split; ecbn; auto; [now intros n0|].
      now rewrite arrivals_app, arrivals_destroy, app_nil_r.
    - split; ecbn; auto. now intros n0.
  Qed.
  Lemma acts_pushes l : forall e e', alike e e' -> alike (acts I l e) (acts I (pushes_only l) e').
  Proof.
    unfold acts. induction l as [|a l IH]; intros e e' H; [exact H|]. cbn [fold_left]. destruct a as [h| |].
    - apply (IH _ (act I e' (Deliver I h))). now apply act_alike.
    - apply IH. eapply alike_trans; [|exact H]. apply act_background. discriminate.
    - apply IH. eapply alike_trans; [|exact H]. apply act_background. discriminate.
  Qed.
  Lemma acts_alike l l' e e' : pushed I l = pushed I l' -> alike e e' -> alike (acts I l e) (acts I l' e').
  Proof.
    intros E H. eapply alike_trans; [apply acts_pushes; exact H|]. apply alike_sym. unfold pushes_only. rewrite E. apply acts_pushes, alike_refl.
  Qed.
  Lemma interrupt_split e : interrupt I e = acts I (hd [] (e_env I e)) (set_env I (tl (e_env I e)) e).
  Proof. unfold interrupt. destruct e as [? ? ? ? ? ? ? ? ? ? ? ? env ?]. now destruct env. Qed.
  Lemma interrupt_alike e e' : alike e e' -> alike (interrupt I e) (interrupt I e').
  Proof.
    intros H. rewrite !interrupt_split. apply acts_alike.
    - pose proof (a_env _ _ H 0) as H0. destruct (e_env I e), (e_env I e'); exact H0.
    - destruct H. split; ecbn; auto. intros n. specialize (a_env0 (S n)). destruct (e_env I e), (e_env I e'); cbn in *; auto; destruct n; auto.
  Qed.
  Lemma push_note_alike n e e' : alike e e' -> alike (push_note I n e) (push_note I n e').
  Proof.
    intros H. unfold push_note. apply interrupt_alike in H. cbv zeta. set (e1 := interrupt I e) in *. set (e1' := interrupt I e') in *. clearbody e1 e1'.
    assert (G : forall e, alike (if length (e_notes I e) + e_note_busy I e <? queue_capacity
                                 then set_notes I (e_notes I e ++ [n]) (e_note_busy I e) e else add_log I (destroy I Caller n) e) e).
    { intros x. destruct (_ <? _); split; ecbn; auto; try (now intros k). now rewrite arrivals_app, arrivals_destroy, app_nil_r. }
    eapply alike_trans; [apply G|]. eapply alike_trans; [exact H|]. apply alike_sym, G.
  Qed.
  Lemma slots_alike c f p e e' : alike e e' -> alike (set_slots I c f p e) (set_slots I c f p e').
  Proof. intros []. split; ecbn; auto. Qed.
  Lemma log_alike l l' e e' : arrivals l = arrivals l' -> alike e e' -> alike (add_log I l e) (add_log I l' e').
  Proof. intros E []. split; ecbn; auto. rewrite !arrivals_app. congruence. Qed.
  Lemma smooth_alike i o e e' : alike e e' -> alike (set_smooth I i o e) (set_smooth I i o e').
  Proof. intros []. split; ecbn; auto. Qed.
  Lemma buffer_alike b e e' : alike e e' -> alike (set_buffer I b e) (set_buffer I b e').
  Proof. intros []. split; ecbn; auto. Qed.
  Lemma commands_alike l n e e' : alike e e' -> alike (set_commands I l n e) (set_commands I l n e').
  Proof. intros []. split; ecbn; auto. Qed.

  Lemma begin_fade_alike e e' : alike e e' -> Rres alike (eng_begin_fade I e) (eng_begin_fade I e').
  Proof.
    intros H. unfold eng_begin_fade. rewrite <- (a_fade _ _ H), <- (a_bounds _ _ H).
    destruct (e_fade I e) as [f|]; [|constructor]. destruct (e_bounds I e) as [b|]; [|constructor].
    destruct (fade_of b _ _) as [[s n]| |]; cbn [bind]; constructor. destruct H. split; ecbn; auto; congruence.
  Qed.
  Lemma ready_alike e e' h : alike e e' -> Rres alike (eng_ready I e h) (eng_ready I e' h).
  Proof.
    intros H. unfold eng_ready. rewrite <- (a_conv _ _ H), <- (a_fade _ _ H), <- (a_pend _ _ H). destruct (e_conv I e) as [c|].
    - set (e1 := match e_pending I e with Some p => _ | None => e end). set (e1' := match e_pending I e with Some p => _ | None => e' end).
      assert (H1 : alike e1 e1') by (unfold e1, e1'; destruct (e_pending I e); auto; now apply push_note_alike, slots_alike).
      clearbody e1 e1'. cbv zeta. rewrite <- (a_conv _ _ H1), <- (a_fade _ _ H1), <- (a_pend _ _ H1). destruct (e_fade I e1).
      + constructor. now apply slots_alike.
      + now apply begin_fade_alike, slots_alike.
    - constructor. now apply slots_alike.
  Qed.
  Lemma service_n_alike : forall n e e', alike e e' -> Rres alike (eng_service_n I n e) (eng_service_n I n e').
  Proof.
    induction n as [|n IH]; intros e e' H; cbn [eng_service_n]; [now constructor|]. apply interrupt_alike in H. cbv zeta.
    rewrite <- (a_cmds _ _ H), <- (a_busy _ _ H). destruct (e_commands I (interrupt I e)) as [|h t]; [constructor|].
    eapply Rbind; [now apply ready_alike, commands_alike|exact IH].
  Qed.
  Lemma service_alike e e' : alike e e' -> Rres alike (eng_service I e) (eng_service I e').
  Proof.
    intros H. unfold eng_service. rewrite <- (a_cmds _ _ H). eapply Rbind; [now apply service_n_alike|].
    intros x y Hxy. apply interrupt_alike in Hxy. cbv zeta. constructor. rewrite <- (a_cmds _ _ Hxy). now apply commands_alike.
  Qed.
  Notation same_result := (Rpair alike (@eq (audio A))).
  Lemma crossfade_alike e e' b : alike e e' -> Rres same_result (eng_crossfade I e b) (eng_crossfade I e' b).
  Proof.
    intros H. unfold eng_crossfade. rewrite <- (a_buf _ _ H), <- (a_conv _ _ H), <- (a_fade _ _ H), <- (a_pend _ _ H), <- (a_in _ _ H), <- (a_out _ _ H).
    destruct (view_sub _ _ _) as [v| |]; cbn [bind]; try constructor. destruct (blk_copy_from v _ b) as [bu| |]; cbn [bind]; try constructor.
    destruct (view_read v bu) as [fb| |]; cbn [bind]; try constructor. destruct (proc I (e_conv I e) b) as [[c o]| |]; cbn [bind]; try constructor.
    destruct (proc I (e_fade I e) fb) as [[f o']| |]; cbn [bind]; try constructor.
    destruct (blk_multiply_by o _) as [o1 s1]. destruct (blk_multiply_by o' _) as [o2 s2]. destruct (blk_add _ o1 o2) as [x| |]; cbn [bind]; try constructor.
    destruct (blk_copy_from v bu o2) as [bu'| |]; cbn [bind]; try constructor. constructor; auto. now apply buffer_alike, smooth_alike, slots_alike.
  Qed.
  Lemma in_out_alike e e' b : alike e e' -> Rres same_result (eng_in_out I e b) (eng_in_out I e' b).
  Proof.
    intros H. unfold eng_in_out. rewrite <- (a_conv _ _ H), <- (a_fade _ _ H), <- (a_pend _ _ H), <- (a_in _ _ H), <- (a_out _ _ H).
    destruct (sm_smoothing _).
    - destruct (proc I (e_conv I e) b) as [[c o]| |]; cbn [bind]; try constructor. destruct (blk_multiply_by o _) as [o1 s1].
      constructor. constructor; auto. now apply smooth_alike, slots_alike.
    - destruct (proc I (e_fade I e) b) as [[c o]| |]; cbn [bind]; try constructor. destruct (blk_multiply_by o _) as [o1 s1].
      constructor. constructor; auto. now apply smooth_alike, slots_alike.
  Qed.
  Lemma reset_fade_alike e e' : alike e e' -> alike (eng_reset_fade I e) (eng_reset_fade I e').
  Proof. intros H. unfold eng_reset_fade. rewrite <- (a_in _ _ H), <- (a_out _ _ H). now apply smooth_alike. Qed.
  Lemma finish_alike e e' : alike e e' -> Rres alike (eng_finish I e) (eng_finish I e').
  Proof.
    intros H. unfold eng_finish. cbv zeta. rewrite <- (a_conv _ _ H), <- (a_fade _ _ H), <- (a_pend _ _ H).
    assert (H1 : alike (push_note I (e_conv I e) (set_slots I None (e_fade I e) (e_pending I e) e)) (push_note I (e_conv I e) (set_slots I None (e_fade I e) (e_pending I e) e')))
      by now apply push_note_alike, slots_alike.
    set (e1 := push_note I _ _) in *. set (e1' := push_note I _ _) in *. clearbody e1 e1'.
    rewrite <- (a_fade _ _ H1), <- (a_pend _ _ H1).
    assert (H2 := reset_fade_alike _ _ (slots_alike (e_fade I e1) None (e_pending I e1) _ _ H1)).
    set (e2 := eng_reset_fade I _) in *. set (e2' := eng_reset_fade I _) in *. clearbody e2 e2'.
    rewrite <- (a_conv _ _ H2), <- (a_pend _ _ H2). destruct (e_pending I e2); [|now constructor]. now apply begin_fade_alike, slots_alike.
  Qed.
  Lemma process_alike e e' b : alike e e' -> Rres same_result (eng_process I e b) (eng_process I e' b).
  Proof.
    intros H. unfold eng_process. eapply Rbind; [apply service_alike, H|]. clear e e' H. intros e e' H.
    rewrite <- (a_fade _ _ H), <- (a_strat _ _ H). destruct (e_fade I e).
    - eapply Rbind with (P := same_result).
      + destruct (e_strategy I e); [now apply in_out_alike|now apply crossfade_alike].
      + intros [e1 o] [e1' o'] HR. inversion HR as [? ? ? ? H1 E]; subst. rewrite <- (a_in _ _ H1).
        eapply Rbind with (P := alike).
        * destruct (sm_smoothing _); [now constructor|now apply finish_alike].
        * intros. constructor. now constructor.
    - rewrite <- (a_conv _ _ H), <- (a_pend _ _ H). destruct (proc I (e_conv I e) b) as [[c o]| |]; cbn [bind]; constructor. constructor; auto. now apply slots_alike.
  Qed.
  Lemma reset_alike e e' : alike e e' -> Rres alike (eng_reset I e) (eng_reset I e').
  Proof.
    intros H. unfold eng_reset. eapply Rbind; [apply service_alike, reset_fade_alike, H|]. clear e e' H. intros e e' H. cbv zeta. constructor.
    rewrite <- (a_buf _ _ H). apply (buffer_alike (audio_clear (e_buffer I e))) in H.
    set (e1 := set_buffer I _ e) in *. set (e1' := set_buffer I _ e') in *. clearbody e1 e1'.
    rewrite <- (a_conv _ _ H), <- (a_fade _ _ H), <- (a_pend _ _ H).
    set (e2 := match e_pending I e1 with Some p => _ | None => _ end). set (e2' := match e_pending I e1 with Some p => add_log I _ (set_slots I _ _ _ e1') | None => _ end).
    assert (H2 : alike e2 e2').
    { unfold e2, e2'. destruct (e_pending I e1), (e_fade I e1); auto; apply log_alike; auto; now apply slots_alike. }
    clearbody e2 e2'. rewrite <- (a_conv _ _ H2), <- (a_fade _ _ H2), <- (a_pend _ _ H2). destruct (e_conv I e2); auto. now apply slots_alike.
  Qed.
  Lemma clear_alike e e' : alike e e' -> Rres alike (eng_clear I e) (eng_clear I e').
  Proof.
    intros H. unfold eng_clear. eapply Rbind; [apply reset_alike, log_alike; [reflexivity|exact H]|]. intros e1 e1' H1. constructor.
    rewrite <- (a_conv _ _ H1), <- (a_fade _ _ H1), <- (a_pend _ _ H1). apply log_alike; auto. now apply slots_alike.
  Qed.
  Lemma prepare_alike e e' s : alike e e' -> Rres alike (eng_prepare I e s) (eng_prepare I e' s).
  Proof.
    intros H. unfold eng_prepare. eapply Rbind; [apply Rrefl|]. intros b ? <-. apply reset_alike, buffer_alike. destruct H. split; ecbn; auto.
  Qed.
  Lemma step_alike e e' o o' : alike e e' -> same_but_background I o o' -> Rres (Rpair alike eq) (eng_step I e o) (eng_step I e' o').
  Proof.
    intros H [x|l l' E]; [destruct x|]; cbn [eng_step].
    - eapply Rbind; [now apply prepare_alike|]. intros. constructor. now constructor.
    - eapply Rbind; [now apply process_alike|]. intros [e1 x] [e1' x'] HR. inversion HR; subst. constructor. now constructor.
    - eapply Rbind; [now apply reset_alike|]. intros. constructor. now constructor.
    - eapply Rbind; [now apply clear_alike|]. intros. constructor. now constructor.
    - constructor. constructor; auto. now apply acts_alike.
    - constructor. constructor; auto. now apply acts_alike.
  Qed.
  Lemma run_alike : forall l l' e e', alike e e' -> Forall2 (same_but_background I) l l' -> Rres (Rpair alike eq) (eng_run I e l) (eng_run I e' l').
  Proof.
    induction l as [|o l IH]; intros l' e e' H HL; inversion HL; subst; cbn [eng_run]; [constructor; now constructor|].
    eapply Rbind; [now apply step_alike|]. intros [e1 x] [e1' x'] HR. inversion HR; subst.
    eapply Rbind; [apply IH; eauto|]. intros [e2 os] [e2' os'] HR'. inversion HR'; subst. constructor. now constructor.
  Qed.
End Alike.

(** ** C68 *)
(** Two runs with the same calls and the same pushes of loading jobs at the same moments; the background thread disposes of
    old convolvers at different moments, or not at all.  Both runs fail or neither; the sound is the same, sample for sample;
    the same convolvers were accepted and rejected; the same ones are in the slots and in the command queue, in the same state. *)
Theorem C68_background_is_inaudible : forall (A : arith) (I : conv_if A) env env' l l',
  same_pushes I env env' -> Forall2 (same_but_background I) l l' ->
  match eng_run I (eng_new I env) l, eng_run I (eng_new I env') l' with
  | Ok (e, outs), Ok (e', outs') => outs = outs' /\ in_line e = in_line e' /\ arrivals (e_log I e) = arrivals (e_log I e')
  | Undef, Undef | Diverge, Diverge => True
  | _, _ => False
  end.
Proof.
  intros A I env env' l l' HE HL.
  assert (H : alike I (eng_new I env) (eng_new I env')) by (split; cbn; auto).
  destruct (run_alike I l l' _ _ H HL) as [[e outs] [e' outs'] HR| |]; auto. inversion HR as [? ? ? ? HA E]; subst.
  split; auto. split; [|apply HA]. unfold in_line. now rewrite (a_conv _ _ _ HA), (a_fade _ _ _ HA), (a_pend _ _ _ HA), (a_cmds _ _ _ HA).
Qed.
Print Assumptions C68_background_is_inaudible.
(** Three convolvers are delivered one after the other.  In one run the background thread never runs, in the other it disposes
    of the first convolver while the second fade is running: the outputs are the same, but the owned convolvers are not. *)
Example C68_example :
  let I := toy Zint in
  let h i := toy_held Zint i 1%Z 5%Z kCrossfade in
  let b : audio Zint := [repeat 1%Z 16] in
  let history x := [Prepare I small_spec; Others I [Deliver I (h 1)]; Process I b; Others I [Deliver I (h 2)]; Process I b;
                    Others I (Deliver I (h 3) :: x); Process I b] in
  same_pushes I [[]; [Dispose I]] [] /\ Forall2 (same_but_background I) (history []) (history [Dispose I; Release I]) /\
  exists e outs e' outs',
    eng_run I (eng_new I [[]; [Dispose I]]) (history []) = Ok (e, outs) /\ eng_run I (eng_new I []) (history [Dispose I; Release I]) = Ok (e', outs') /\
    outs = outs' /\ in_line e = in_line e' /\ length (e_notes I e) = 2 /\ length (e_notes I e') = 1.
Proof.
  intros I h b history.
  assert (H1 : same_pushes I [[]; [Dispose I]] []) by (intros [|[|[|n]]]; reflexivity).
  assert (H2 : Forall2 (same_but_background I) (history []) (history [Dispose I; Release I])).
  { repeat first [apply Forall2_nil|apply Forall2_cons]; first [apply sb_same|apply sb_others; reflexivity]. }
  split; auto. split; auto.
  pose proof (C68_background_is_inaudible Zint I _ _ _ _ H1 H2) as H.
  set (notes := fun r : res (engine I * list (audio Zint)) => match r with Ok (e, _) => length (e_notes I e) | _ => 0 end).
  assert (N1 : notes (eng_run I (eng_new I [[]; [Dispose I]]) (history [])) = 2) by (vm_compute; reflexivity).
  assert (N2 : notes (eng_run I (eng_new I []) (history [Dispose I; Release I])) = 1) by (vm_compute; reflexivity).
  revert H N1 N2. generalize (eng_run I (eng_new I [[]; [Dispose I]]) (history [])), (eng_run I (eng_new I []) (history [Dispose I; Release I])).
  clear. intros r r' H N1 N2. destruct r as [[e outs]| |]; [|discriminate N1..]. destruct r' as [[e' outs']| |]; [|contradiction..].
  exists e, outs, e', outs'. destruct H as (H3 & H4 & _). auto 10.
Qed.

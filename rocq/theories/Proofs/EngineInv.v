(** * The engine never goes wrong *)
From Verif.Model Require Import Base Arith Juce Float32 SmoothedValue Convolver ConvolutionEngine.
From Verif.Spec Require Import Transform Signal Engine.
From Verif.Proofs Require Import Lists Blocks FFTProof FadeProof SmoothProof EngineProof.

Ltac ecbn := cbn [eng_set_fade_time eng_reset_fade set_slots set_smooth set_strategy set_buffer set_bounds set_commands set_notes set_env add_log
    e_conv e_fade e_pending e_in e_out e_buffer e_bounds e_strategy e_commands e_cmd_busy e_notes e_note_busy e_env e_log].
Ltac ecbn_in H := cbn [eng_set_fade_time eng_reset_fade set_slots set_smooth set_strategy set_buffer set_bounds set_commands set_notes set_env add_log
    e_conv e_fade e_pending e_in e_out e_buffer e_bounds e_strategy e_commands e_cmd_busy e_notes e_note_busy e_env e_log] in H.

Section Inv.
  Context {A : arith} (I : conv_if A).
  Notation engine := (engine I).
  Notation held := (held I).
  Variable w : nat.
  Variable ok : cv I -> Prop.
  Hypothesis Hw : 0 < w.
  Hypothesis HI : accepting I w ok.

  Definition okh (h : held) : Prop := ok (h_cv I h).
  Definition oko (o : option held) : Prop := forall h, o = Some h -> okh h.

  Lemma oko_None : oko None. Proof. intros h H. discriminate. Qed.
  Lemma oko_Some h : okh h -> oko (Some h). Proof. intros H h' E. now injection E as <-. Qed.

  (** what the other threads may change *)
  Definition qok (e : engine) : Prop :=
    Forall okh (e_commands I e) /\ Forall (delivers_ok I ok) (e_env I e).
  Definition grows (e e' : engine) : Prop := exists l, e_commands I e' = e_commands I e ++ l.
  Lemma grows_refl e : grows e e. Proof. exists []. now rewrite app_nil_r. Qed.
  Lemma grows_trans a b c : grows a b -> grows b c -> grows a c.
  Proof. intros [l1 H1] [l2 H2]. exists (l1 ++ l2). now rewrite H2, H1, app_assoc. Qed.

  Ltac gr := exists []; now rewrite app_nil_r.

  Lemma act_q e a : (forall h, a = Deliver I h -> okh h) -> qok e -> qok (act I e a) /\ grows e (act I e a).
  Proof.
    intros Ha [H1 H2]. destruct a as [h| |]; cbn [act].
    - destruct (_ <? _).
      + split; [split; ecbn; auto; apply Forall_app; auto|]. exists [h]. reflexivity.
      + split; [split; ecbn; auto|gr].
    - destruct (e_notes I e); (split; [split|gr]); auto.
    - split; [split|gr]; auto.
  Qed.
  Lemma acts_q l : forall e, delivers_ok I ok l -> qok e -> qok (acts I l e) /\ grows e (acts I l e).
  Proof.
    unfold acts. induction l as [|a l IH]; intros e Hl H; [split; [auto|apply grows_refl]|]. cbn [fold_left].
    destruct (act_q e a) as [Q1 G1]; auto; [intros h ->; apply Hl; now left|].
    destruct (IH (act I e a)) as [Q2 G2]; auto; [intros h Hh; apply Hl; now right|].
    split; auto. eapply grows_trans; eauto.
  Qed.
  Lemma interrupt_q e : qok e -> qok (interrupt I e) /\ grows e (interrupt I e).
  Proof.
    intros [H1 H2]. unfold interrupt. destruct (e_env I e) as [|l t] eqn:E.
    - split; [split; auto|gr]. now rewrite E.
    - inversion H2; subst. destruct (acts_q l (set_env I t e)) as [Q G]; auto; split; auto.
  Qed.
  Lemma push_note_q n e : qok e -> qok (push_note I n e) /\ grows e (push_note I n e).
  Proof.
    intros H. unfold push_note. destruct (interrupt_q e H) as [Q G]. destruct (_ <? _); split; auto.
  Qed.

  (** the part only the caller changes *)
  Record sok (M : nat) (b : bounds) (e : engine) : Prop := {
    i_bounds : e_bounds I e = Some b;
    i_order : (lower_fade_bound b <= upper_fade_bound b)%Z;
    i_longest : (max_crossfade_ir_length b < 2 ^ 31)%Z;
    i_buffer : block_of w M (e_buffer I e);
    i_conv : oko (e_conv I e); i_fade : oko (e_fade I e); i_pending : oko (e_pending I e);
    i_none : e_fade I e = None -> e_pending I e = None
  }.
  Definition inv M b e : Prop := sok M b e /\ qok e.

  Lemma sok_same M b e e' : sok M b e -> e_conv I e' = e_conv I e -> e_fade I e' = e_fade I e -> e_pending I e' = e_pending I e ->
    e_buffer I e' = e_buffer I e -> e_bounds I e' = e_bounds I e -> sok M b e'.
  Proof. intros [? ? ? ? ? ? ? ?] E1 E2 E3 E4 E5. split; rewrite ?E1, ?E2, ?E3, ?E4, ?E5; auto. Qed.

  Lemma interrupt_inv M b e : inv M b e -> inv M b (interrupt I e) /\ grows e (interrupt I e).
  Proof.
    intros [H1 H2]. destruct (interrupt_q e H2) as [Q G]. split; [split; auto|auto].
    destruct (interrupt_slots I e) as (G1 & G2 & G3 & G4 & G5 & G6 & G7 & G8 & G9).
    eapply sok_same; eauto.
  Qed.
  Lemma push_note_inv M b n e : inv M b e -> inv M b (push_note I n e) /\ grows e (push_note I n e).
  Proof.
    intros [H1 H2]. destruct (push_note_q n e H2) as [Q G]. split; [split; auto|auto].
    destruct (push_note_slots I n e) as (G1 & G2 & G3 & G4 & G5 & G6 & G7 & G8 & G9).
    eapply sok_same; eauto.
  Qed.

  Lemma begin_fade_ok M b e f : inv M b e -> e_fade I e = Some f ->
    exists e', eng_begin_fade I e = Ok e' /\ inv M b e' /\ e_commands I e' = e_commands I e.
  Proof.
    intros [[? ? ? ? ? ? ? ?] [Q1 Q2]] Hf. unfold eng_begin_fade. rewrite Hf, i_bounds0, fade_of_ok by auto. cbn [bind].
    match goal with |- context [let (_, _) := ?x in _] => destruct x as [s n] end.
    eexists. split; [reflexivity|]. split; [|reflexivity]. split; split; auto.
  Qed.

  Lemma ready_ok M b e h : inv M b e -> okh h ->
    exists e', eng_ready I e h = Ok e' /\ inv M b e' /\ grows e e'.
  Proof.
    intros HIn Hh. unfold eng_ready. destruct (e_conv I e) as [c|] eqn:Ec.
    2:{ eexists. split; [reflexivity|]. split; [|exists []; now rewrite app_nil_r].
        destruct HIn as [[] []]. split; split; ecbn; auto. now apply oko_Some. }
    set (e1 := match e_pending I e with Some p => _ | None => e end).
    assert (H1 : inv M b e1 /\ grows e e1 /\ e_pending I e1 = None).
    { unfold e1. destruct (e_pending I e) as [p|] eqn:Ep.
      - assert (H0 : inv M b (set_slots I (Some c) (e_fade I e) None e)).
        { destruct HIn as [[] []]. split; split; ecbn; auto; try (now rewrite <- Ec); try apply oko_None; auto. }
        destruct (push_note_inv M b (Some p) _ H0) as [G1 G2].
        destruct (push_note_slots I (Some p) (set_slots I (Some c) (e_fade I e) None e)) as (_ & _ & G & _).
        split; auto.
      - split; auto. split; [apply grows_refl|auto]. }
    clearbody e1. destruct H1 as (HB & HG & Hp).
    destruct (e_fade I e1) as [f|] eqn:Ef.
    - eexists. split; [reflexivity|]. split; [|exact HG].
      destruct HB as [[] []]. split; split; ecbn; auto; try (now rewrite <- Ef); try (now apply oko_Some); try discriminate.
    - destruct (begin_fade_ok M b (set_slots I (e_conv I e1) (Some h) (e_pending I e1) e1) h) as (e2 & E2 & I2 & C2); auto.
      + destruct HB as [[] []]. split; split; ecbn; auto; try (now apply oko_Some); try discriminate.
      + exists e2. split; auto. split; auto. destruct HG as [l HG]. exists l. rewrite C2. exact HG.
  Qed.

  Lemma service_n_ok M b : forall n e, inv M b e -> n <= length (e_commands I e) ->
    exists e', eng_service_n I n e = Ok e' /\ inv M b e'.
  Proof.
    induction n as [|n IH]; intros e He Hn; cbn [eng_service_n]; [eauto|].
    destruct (interrupt_inv M b e He) as [H1 [l G1]]. cbv zeta. set (e1 := interrupt I e) in *. clearbody e1.
    destruct (e_commands I e1) as [|h t] eqn:Ec.
    { assert (length (e_commands I e ++ l) = 0) by now rewrite <- G1. rewrite app_length in H. lia. }
    assert (Hh : okh h /\ inv M b (set_commands I t (S (e_cmd_busy I e1)) e1)).
    { destruct H1 as [[] [Q1 Q2]]. rewrite Ec in Q1. inversion Q1; subst. split; auto. split; split; auto. }
    destruct Hh as [Hh H2].
    destruct (ready_ok M b _ h H2 Hh) as (e2 & E2 & I2 & [l2 G2]).
    rewrite E2. cbn [bind]. apply IH; auto. rewrite G2. ecbn. rewrite app_length.
    assert (length (e_commands I e ++ l) = S (length t)) by now rewrite <- G1. rewrite app_length in H. lia.
  Qed.
  Lemma service_ok M b e : inv M b e -> exists e', eng_service I e = Ok e' /\ inv M b e'.
  Proof.
    intros He. unfold eng_service. destruct (service_n_ok M b _ e He (le_n _)) as (e1 & -> & H1). cbn [bind].
    eexists. split; [reflexivity|]. destruct (interrupt_inv M b e1 H1) as [H2 _].
    destruct H2 as [[] []]. split; split; auto.
  Qed.

  Lemma proc_ok o m b : oko o -> block_of w m b ->
    exists o' b', proc I o b = Ok (o', b') /\ oko o' /\ block_of w m b' /\ (o = None <-> o' = None).
  Proof.
    intros Ho Hb. destruct o as [h|]; cbn [proc].
    - destruct (proj1 HI (h_cv I h) m b (Ho h eq_refl) Hb) as (c' & b' & E & Hc & Hb'). rewrite E. cbn [bind].
      eexists _, _. split; [reflexivity|]. split; [now apply oko_Some|]. split; auto. split; discriminate.
    - eexists _, _. split; [reflexivity|]. split; auto. split; auto. tauto.
  Qed.

  Lemma block_mk m (b : audio A) : block_of w m b -> b = mk w m (fun c i => nth i (nth c b []) s0).
  Proof. apply shaped_eq. Qed.
  Lemma mk_block m f : block_of w m (@mk (sample A) w m f).
  Proof. apply shaped_mk. Qed.

  (** sample [i] of channel [c] *)
  Definition at_ (b : audio A) (c i : nat) : sample A := nth i (nth c b []) s0.

  (** one block of a cross-fade *)
  Lemma crossfade_eq M m e out c' oa f' ob :
    block_of w M (e_buffer I e) -> 0 < M -> m <= M -> block_of w m out ->
    proc I (e_conv I e) out = Ok (c', oa) -> block_of w m oa ->
    proc I (e_fade I e) out = Ok (f', ob) -> block_of w m ob ->
    exists buffer, block_of w M buffer /\
    eng_crossfade I e out
    = Ok (set_buffer I buffer (set_smooth I (sm_iter m (e_in I e)) (sm_iter m (e_out I e)) (set_slots I c' f' (e_pending I e) e)),
          mk w m (fun c i => sadd (smul (at_ oa c i) (gain (e_out I e) i)) (smul (at_ ob c i) (gain (e_in I e) i)))).
  Proof.
    intros HB HM Hm Ho Ea Ha Eb Hb.
    pose proof (block_mk M _ HB) as EB. set (B := fun c i => _) in EB.
    pose proof (block_mk m _ Ho) as EO. set (O := fun c i => _) in EO.
    pose proof (block_mk m _ Ha) as EA. change (oa = mk w m (at_ oa)) in EA.
    pose proof (block_mk m _ Hb) as EBB. change (ob = mk w m (at_ ob)) in EBB.
    eexists. split; cycle 1.
    { unfold eng_crossfade.
    assert (E1 : num_samples out = m) by (rewrite EO; now apply num_samples_mk). rewrite E1.
    rewrite EB at 1. rewrite whole_mk by auto. rewrite view_sub_ok; cbn [v_len v_start]; [|lia|lia]. cbn [bind].
    rewrite EB at 1. rewrite EO at 1. unfold blk_copy_from. rewrite blk_apply_mk; cbn [v_start v_len]; [|lia|auto]. cbn [bind].
    rewrite view_read_mk; cbn [v_start v_len]; [|lia]. cbn [bind].
    match goal with |- context [proc I (e_fade I e) ?x] => assert (EX : x = out) end.
    { rewrite EO. apply mk_ext. intros c i Hc Hi. bcase; try lia. unfold f_copy. f_equal. lia. }
    rewrite EX, Ea. cbn [bind]. rewrite Eb. cbn [bind].
    rewrite EA, multiply_by_mk by auto. rewrite EBB, multiply_by_mk by auto.
    unfold blk_add. rewrite whole_mk by auto. rewrite blk_apply_mk; cbn [v_start v_len]; [|lia|auto]. cbn [bind].
    rewrite blk_apply_mk; cbn [v_start v_len]; [|lia|auto]. cbn [bind].
    rewrite <- EA, <- EBB. f_equal. f_equal. apply mk_ext. intros c i Hc Hi. bcase; try lia. now rewrite Nat.sub_0_r. }
    apply mk_block.
  Qed.

  (** one block of an in/out fade *)
  Lemma in_out_eq_out m e out c' oa :
    block_of w m out -> sm_smoothing (e_out I e) = true ->
    proc I (e_conv I e) out = Ok (c', oa) -> block_of w m oa ->
    eng_in_out I e out
    = Ok (set_smooth I (e_in I e) (sm_iter m (e_out I e)) (set_slots I c' (e_fade I e) (e_pending I e) e),
          mk w m (fun c i => smul (at_ oa c i) (gain (e_out I e) i))).
  Proof.
    intros Ho Hs Ea Ha. unfold eng_in_out. rewrite Hs, Ea. cbn [bind].
    pose proof (block_mk m _ Ha) as EA. change (oa = mk w m (at_ oa)) in EA.
    rewrite EA, multiply_by_mk by auto. now rewrite <- EA.
  Qed.
  Lemma in_out_eq_in m e out f' ob :
    block_of w m out -> sm_smoothing (e_out I e) = false ->
    proc I (e_fade I e) out = Ok (f', ob) -> block_of w m ob ->
    eng_in_out I e out
    = Ok (set_smooth I (sm_iter m (e_in I e)) (e_out I e) (set_slots I (e_conv I e) f' (e_pending I e) e),
          mk w m (fun c i => smul (at_ ob c i) (gain (e_in I e) i))).
  Proof.
    intros Ho Hs Ea Ha. unfold eng_in_out. rewrite Hs, Ea. cbn [bind].
    pose proof (block_mk m _ Ha) as EA. change (ob = mk w m (at_ ob)) in EA.
    rewrite EA, multiply_by_mk by auto. now rewrite <- EA.
  Qed.

  Lemma finish_ok M b e : inv M b e -> exists e', eng_finish I e = Ok e' /\ inv M b e'.
  Proof.
    intros He. unfold eng_finish.
    assert (H0 : inv M b (set_slots I None (e_fade I e) (e_pending I e) e)).
    { destruct He as [[] []]. split; split; ecbn; auto. apply oko_None. }
    destruct (push_note_inv M b (e_conv I e) _ H0) as [H1 _].
    destruct (push_note_slots I (e_conv I e) (set_slots I None (e_fade I e) (e_pending I e) e)) as (G1 & G2 & G3 & _).
    set (e1 := push_note I _ _) in *. clearbody e1. cbv zeta. ecbn.
    destruct (e_pending I e1) as [p|] eqn:Ep.
    - destruct (begin_fade_ok M b (set_slots I (e_fade I e1) (Some p) None (eng_reset_fade I (set_slots I (e_fade I e1) None (Some p) e1))) p) as (e2 & E2 & I2 & _); auto.
      + destruct H1 as [[] []]. split; split; ecbn; auto; try (now rewrite <- Ep); try apply oko_None; auto.
      + exists e2. split; auto.
    - eexists. split; [reflexivity|]. destruct H1 as [[] []]. split; split; ecbn; auto; apply oko_None.
  Qed.

  Lemma process_ok M b e m out : inv M b e -> 0 < M -> m <= M -> block_of w m out ->
    exists e' o', eng_process I e out = Ok (e', o') /\ inv M b e' /\ block_of w m o'.
  Proof.
    intros He HM Hm Ho. unfold eng_process. destruct (service_ok M b e He) as (e1 & -> & H1). cbn [bind].
    destruct (e_fade I e1) as [f|] eqn:Ef.
    - assert (X : exists e2 o2, (match e_strategy I e1 with kCrossfade => eng_crossfade I e1 out | kInOut => eng_in_out I e1 out end) = Ok (e2, o2)
                   /\ inv M b e2 /\ block_of w m o2).
      { pose proof H1 as [S1 Q1]. pose proof (i_conv _ _ _ S1) as Hc. pose proof (i_fade _ _ _ S1) as Hf. pose proof (i_buffer _ _ _ S1) as HB.
        destruct (proc_ok _ m out Hc Ho) as (c' & oa & Ea & Hc' & Ha & _).
        destruct (proc_ok _ m out Hf Ho) as (f' & ob & Eb & Hf' & Hb & Hn).
        destruct (e_strategy I e1).
        - destruct (sm_smoothing (e_out I e1)) eqn:Es.
          + rewrite (in_out_eq_out m e1 out c' oa) by auto. eexists _, _. split; [reflexivity|]. split; [|apply mk_block].
            destruct S1, Q1. split; split; ecbn; auto.
          + rewrite (in_out_eq_in m e1 out f' ob) by auto. eexists _, _. split; [reflexivity|]. split; [|apply mk_block].
            destruct S1, Q1. split; split; ecbn; auto. intros ->. apply i_none0. tauto.
        - destruct (crossfade_eq M m e1 out c' oa f' ob HB HM Hm Ho Ea Ha Eb Hb) as (buf & Hbuf & ->).
          eexists _, _. split; [reflexivity|]. split; [|apply mk_block].
          destruct S1, Q1. split; split; ecbn; auto. intros ->. apply i_none0. tauto. }
      destruct X as (e2 & o2 & -> & H2 & Ho2). cbn [bind].
      destruct (sm_smoothing (e_in I e2)); cbn [bind]; [eauto|].
      destruct (finish_ok M b e2 H2) as (e3 & -> & H3). cbn [bind]. eauto.
    - pose proof H1 as [S1 Q1]. destruct (proc_ok _ m out (i_conv _ _ _ S1) Ho) as (c' & oa & Ea & Hc' & Ha & _). rewrite Ea. cbn [bind].
      eexists _, _. split; [reflexivity|]. split; auto. destruct S1, Q1. split; split; ecbn; auto; apply oko_None.
  Qed.

  Lemma clear_buffer M (x : audio A) : block_of w M x -> block_of w M (audio_clear x).
  Proof.
    intros [L S]. unfold audio_clear. split; [now rewrite map_length|]. intros c Hc. apply in_map_iff in Hc as (c' & <- & Hc).
    rewrite map_length. auto.
  Qed.
  Lemma reset_ok M b e : inv M b e -> exists e', eng_reset I e = Ok e' /\ inv M b e'.
  Proof.
    intros He. unfold eng_reset.
    destruct (service_ok M b (eng_reset_fade I e)) as (e1 & -> & H1). { destruct He as [[] []]. split; split; auto. }
    cbn [bind]. eexists. split; [reflexivity|]. pose proof (clear_buffer M _ (i_buffer _ _ _ (proj1 H1))) as HB.
    destruct HI as [_ HR]. destruct H1 as [[] []]. ecbn.
    destruct (e_pending I e1) as [p|] eqn:Ep, (e_fade I e1) as [f|] eqn:Ef; ecbn.
    - split; split; ecbn; auto; try discriminate; try apply oko_None. apply oko_Some. apply HR. now apply i_pending0.
    - specialize (i_none0 eq_refl). discriminate.
    - split; split; ecbn; auto; try discriminate; try apply oko_None. apply oko_Some. apply HR. now apply i_fade0.
    - destruct (e_conv I e1) as [c|] eqn:Ec; split; split; ecbn; auto; rewrite ?Ec, ?Ep, ?Ef; auto.
      apply oko_Some. apply HR. now apply i_conv0.
  Qed.
  Lemma clear_ok M b e : inv M b e -> exists e', eng_clear I e = Ok e' /\ inv M b e'.
  Proof.
    intros He. unfold eng_clear. destruct (reset_ok M b (add_log I [ClearCalled] e)) as (e1 & -> & H1).
    { destruct He as [[] []]. split; split; auto. }
    cbn [bind]. eexists. split; [reflexivity|]. destruct H1 as [[] []]. split; split; ecbn; auto; apply oko_None.
  Qed.

  (** before the first prepare *)
  Definition pre (e : engine) : Prop :=
    e_conv I e = None /\ e_fade I e = None /\ e_pending I e = None /\ qok e.
  Definition state_ok (prepared : option nat) (e : engine) : Prop :=
    match prepared with
    | None => pre e
    | Some M => 0 < M /\ exists b, inv M b e
    end.

  Lemma prepare_ok prepared e s : spec_ok w s -> state_ok prepared e ->
    exists e' b, engine_bounds s = Ok b /\ eng_prepare I e s = Ok e' /\ inv (ps_max_block s) b e'.
  Proof.
    intros (Hc & HM & H1 & H2 & H3) He. unfold eng_prepare.
    destruct (bounds_ok s H1 H2 H3) as (b & Eb & _ & _ & _ & _ & HO & _ & HL). rewrite Eb. cbn [bind].
    destruct (reset_ok (ps_max_block s) b (set_buffer I (zeros (ps_channels s) (ps_max_block s)) (set_bounds I b e))) as (e' & E & H).
    - assert (HB : block_of w (ps_max_block s) (zeros (A := A) (ps_channels s) (ps_max_block s))).
      { rewrite Hc, zeros_mk. apply mk_block. }
      destruct prepared as [M|]; cbn [state_ok] in He.
      + destruct He as (_ & b0 & [[] []]). split; split; ecbn; auto; lia.
      + destruct He as (E1 & E2 & E3 & []). split; split; ecbn; auto; try lia; rewrite ?E1, ?E2, ?E3; auto; apply oko_None.
    - exists e', b. auto.
  Qed.

  Fixpoint prepared_after (prepared : option nat) (l : list (op I)) : option nat :=
    match l with
    | [] => prepared
    | Prepare _ s :: t => prepared_after (Some (ps_max_block s)) t
    | _ :: t => prepared_after prepared t
    end.

  Lemma step_ok o prepared e : legal I w ok prepared [o] -> state_ok prepared e ->
    exists e' x, eng_step I e o = Ok (e', x) /\ state_ok (prepared_after prepared [o]) e' /\
      Forall2 (fun b o => exists m, block_of w m b /\ block_of w m o) (blocks_in I [o]) x.
  Proof.
    intros HL He. destruct o as [s|b| | |l]; cbn [legal eng_step prepared_after blocks_in flat_map app] in *.
    - destruct (prepare_ok prepared e s) as (e' & b & Eb & -> & H); try tauto. cbn [bind].
      eexists _, _. split; [reflexivity|]. split; [|constructor]. split; [apply HL|eauto].
    - destruct HL as [(M & m & -> & Hm & Hb) _]. destruct He as (HM & bd & He).
      destruct (process_ok M bd e m b He HM Hm Hb) as (e' & o' & -> & H & Ho). cbn [bind].
      eexists _, _. split; [reflexivity|]. split; [cbn; eauto|]. constructor; eauto.
    - destruct prepared as [M|]; [|now destruct HL]. destruct He as (HM & bd & He).
      destruct (reset_ok M bd e He) as (e' & -> & H). cbn [bind]. eexists _, _. split; [reflexivity|]. split; [cbn; eauto|constructor].
    - destruct prepared as [M|]; [|now destruct HL]. destruct He as (HM & bd & He).
      destruct (clear_ok M bd e He) as (e' & -> & H). cbn [bind]. eexists _, _. split; [reflexivity|]. split; [cbn; eauto|constructor].
    - eexists _, _. split; [reflexivity|]. split; [|constructor].
      destruct (acts_slots I l e) as (G1 & G2 & G3 & G4 & G5 & G6 & G7 & G8 & G9).
      destruct prepared as [M|]; cbn [state_ok] in *.
      + destruct He as (HM & bd & [HS HQ]). split; auto. exists bd. destruct (acts_q l e) as [Q _]; [apply HL|auto|].
        split; auto. eapply sok_same; eauto.
      + destruct He as (E1 & E2 & E3 & HQ). destruct (acts_q l e) as [Q _]; [apply HL|auto|]. repeat split; try congruence; apply Q.
  Qed.

  Lemma legal_cons prepared o l : legal I w ok prepared (o :: l) <->
    legal I w ok prepared [o] /\ legal I w ok (prepared_after prepared [o]) l.
  Proof. destruct o; cbn [legal prepared_after]; tauto. Qed.
  Lemma prepared_cons prepared o l : prepared_after prepared (o :: l) = prepared_after (prepared_after prepared [o]) l.
  Proof. destruct o; reflexivity. Qed.

  Lemma run_ok : forall l prepared e, legal I w ok prepared l -> state_ok prepared e ->
    exists e' outs, eng_run I e l = Ok (e', outs) /\ state_ok (prepared_after prepared l) e' /\
      Forall2 (fun b o => exists m, block_of w m b /\ block_of w m o) (blocks_in I l) outs.
  Proof.
    induction l as [|o l IH]; intros prepared e HL He.
    - eexists _, _. split; [reflexivity|]. split; [exact He|constructor].
    - apply legal_cons in HL. destruct HL as [H1 H2].
      destruct (step_ok o prepared e H1 He) as (e1 & x1 & E1 & S1 & F1).
      destruct (IH _ e1 H2 S1) as (e2 & x2 & E2 & S2 & F2).
      exists e2, (x1 ++ x2). cbn [eng_run]. rewrite E1. cbn [bind]. rewrite E2. cbn [bind]. split; [reflexivity|].
      rewrite prepared_cons. split; auto. unfold blocks_in in *. cbn [flat_map] in F1. rewrite app_nil_r in F1. cbn [flat_map].
      now apply Forall2_app.
  Qed.

  Lemma new_ok env : Forall (delivers_ok I ok) env -> state_ok None (eng_new I env).
  Proof. intros H. cbn. repeat split; auto; constructor. Qed.
End Inv.

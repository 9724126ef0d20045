(** * C46, C47: the engine with the real convolvers *)
From Coq Require Import ZArith.
From Verif.Model Require Import Base Arith ArithReal ArithMod Juce Float32 SmoothedValue Partitioning
     UniformPartitionedConvolver TimeDistributedNUPC Convolver ConvolutionEngine.
From Verif.Spec Require Import Transform RealFFT Signal Routing Engine.
From Verif.Proofs Require Import Lists Blocks Streams FloatProof FadeProof FadeExact RealFFTProof SmoothProof EngineProof EngineInv EngineFront
     EngineCalm EngineRoom EngineRun EngineFade EngineMore EngineLevels.
From Verif.Props Require Import PartitionProps ConvolverProps EngineProps FadeProps SwitchProps.

(** ** C46 *)
(** Whatever the legal calls, the blocks, the convolvers and the schedule, no call fails (no access out of
    range, no undefined arithmetic, no endless loop), and every block comes back in its own shape. *)
Theorem C46_never_fails : forall (A : arith) (I : conv_if A) w ok, 0 < w -> accepting I w ok ->
  forall env l, Forall (delivers_ok I ok) env -> legal I w ok None l ->
  exists e outs, eng_run I (eng_new I env) l = Ok (e, outs) /\
    Forall2 (fun b o => exists m, block_of w m b /\ block_of w m o) (blocks_in I l) outs.
Proof.
  intros A I w ok Hw HI env l He Hl.
  destruct (run_ok I w ok Hw HI l None (eng_new I env) Hl (new_ok I w ok env He)) as (e & outs & E & _ & F). eauto.
Qed.

(** A convolver constructed from some response, then used: fed blocks of [w] channels and reset any number of
    times. *)
Definition used {A : arith} (R : rfft A) (w : nat) (c : convolver A) : Prop :=
  exists m ir M spec new history current s1 outs1 outs2,
    well_made R w m ir M spec new /\
    (forall blocks, In blocks history -> blocks_of w blocks) /\ blocks_of w current /\
    feed_sessions (conv_process R) conv_reset new history = Ok (s1, outs1) /\
    feed (conv_process R) s1 current = Ok (c, outs2).
Lemma used_new {A : arith} (R : rfft A) w m ir M spec c : well_made R w m ir M spec c -> used R w c.
Proof. intros H. exists m, ir, M, spec, c, [], [], c, [], []. split; auto. split; [intros ? []|]. split; [intros ? []|]. split; reflexivity. Qed.

(** The real convolvers meet what the theorems about the engine assume of convolvers, whatever their
    responses, their fade strategies, their internal block sizes and the way they were used. *)
Theorem C46_convolvers_are_accepting : forall (A : arith), arith_laws A -> forall R : rfft A, rfft_ok R -> forall w,
  accepting (convolver_if R) w (@used A R w).
Proof.
  intros A L R HR w. split.
  - intros c m b (m0 & ir & M & spec & new & hist & cur & s1 & o1 & o2 & HW & Hh & Hc & E1 & E2) Hb.
    assert (Hcb : blocks_of w (cur ++ [b])).
    { intros x Hx. apply in_app_iff in Hx as [Hx|[<-|[]]]; [now apply Hc|now exists m]. }
    destruct (well_made_routed L R HR w m0 ir M spec new HW (hist ++ [cur ++ [b]])) as (s' & outs & E & HF).
    { intros x Hx. apply in_app_iff in Hx as [Hx|[<-|[]]]; auto. }
    rewrite feed_sessions_app, E1 in E. cbn [bind feed_sessions] in E.
    destruct (feed (conv_process R) s1 (cur ++ [b])) as [[s2 o3]| |] eqn:E3; cbn [bind] in E; try discriminate.
    cbn [cv_process convolver_if].
    assert (EX : exists b', conv_process R c b = Ok (s2, b') /\ o3 = o2 ++ [b']).
    { revert E2 E3. clear. revert s1 o2 o3. induction cur as [|x cur IH]; intros s1 o2 o3 E2 E3; cbn [feed app] in *.
      - injection E2 as <- <-. destruct (conv_process R s1 b) as [[s3 o4]| |]; cbn [bind] in E3; try discriminate.
        injection E3 as <- <-. exists o4. split; auto.
      - destruct (conv_process R s1 x) as [[s3 o4]| |]; cbn [bind] in *; try discriminate.
        destruct (feed (conv_process R) s3 cur) as [[s4 o5]| |] eqn:F; cbn [bind] in *; try discriminate.
        destruct (feed (conv_process R) s3 (cur ++ [b])) as [[s5 o6]| |] eqn:F'; cbn [bind] in *; try discriminate.
        injection E2 as <- <-. injection E3 as <- <-. destruct (IH _ _ _ F F') as (b' & G1 & ->). exists b'. split; auto. }
    destruct EX as (b' & EP & ->). exists s2, b'. split; auto. split.
    + exists m0, ir, M, spec, new, hist, (cur ++ [b]), s1, o1, (o2 ++ [b']). auto 6.
    + injection E as _ <-. apply Forall2_app_inv_l in HF as (p & q & HFp & HFq & Epq).
      inversion HFq as [|? y ? q1 Hy HFq1]; subst. inversion HFq1; subst.
      apply app_inj_tail in Epq as [_ <-]. destruct Hy as (HL & HS & _).
      destruct (HS (length cur)) as (k & K1 & K2); [rewrite app_length; cbn; lia|].
      rewrite !app_length in HL. cbn in HL. assert (HL2 : length o2 = length cur) by lia.
      rewrite nth_middle in K1. rewrite <- HL2, nth_middle in K2.
      assert (k = m \/ w = 0) as [-> | ->].
      { destruct Hb as [Hb1 Hb2], K1 as [K3 K4]. destruct b as [|x b]; [right; cbn in *; lia|]. left.
        rewrite <- (K4 x), <- (Hb2 x); auto; now left. }
      * exact K2.
      * destruct K2 as [K2 _]. destruct b'; [split; auto; intros ? []|discriminate].
  - intros c (m0 & ir & M & spec & new & hist & cur & s1 & o1 & o2 & HW & Hh & Hc & E1 & E2).
    exists m0, ir, M, spec, new, (hist ++ [cur]), [], (conv_reset c), (o1 ++ [o2]), []. split; auto. split.
    { intros x Hx. apply in_app_iff in Hx as [Hx|[<-|[]]]; auto. }
    split; [intros ? []|]. split; [|reflexivity]. rewrite feed_sessions_app, E1. cbn [bind feed_sessions]. rewrite E2. reflexivity.
Qed.
(** For instance: a stereo engine and two convolvers for 44.1 kHz, loaded, faded, reset, cleared. *)
Example C46_hypotheses :
  let I := convolver_if (@fast_rfft Rarith) in
  let one : audio Rarith := map (map Rdefinitions.IZR) [[1; 2; 3; 4; 5]; [7; 0; 1; 2; 3]]%Z in
  let two : audio Rarith := map (map Rdefinitions.IZR) [[1; -2; 3]; [7; 0; 1]]%Z in
  let sp := {| cs_in := [0; 1]; cs_out := [1; 0]; cs_fade := kCrossfade; cs_internal := None |} in
  let s := {| ps_rate_num := 44100; ps_rate_den := 1; ps_max_block := 64; ps_channels := 2 |} in
  exists c1 c2, conv_make fast_rfft one 64 sp = Ok c1 /\ conv_make fast_rfft two 64 sp = Ok c2 /\
  forall b : audio Rarith, block_of 2 50 b ->
  legal I 2 (@used Rarith fast_rfft 2) None
    [Others I [Deliver I {| h_id := 1; h_cv := c1 : cv I |}]; Prepare I s; Process I b; Others I [Deliver I {| h_id := 2; h_cv := c2 : cv I |}];
     Process I b; Reset I; Process I b; Clear I; Process I b].
Proof.
  intros I one two sp s.
  destruct (well_made_exists Rarith_laws fast_rfft (fast_rfft_ok Rarith_laws) 2 5 one 64 sp) as (c1 & H1); try (cbn; lia).
  { split; auto. intros c H; repeat (destruct H as [<-|H]); try destruct H; reflexivity. }
  destruct (well_made_exists Rarith_laws fast_rfft (fast_rfft_ok Rarith_laws) 2 3 two 64 sp) as (c2 & H2); try (cbn; lia).
  { split; auto. intros c H; repeat (destruct H as [<-|H]); try destruct H; reflexivity. }
  exists c1, c2. split; [apply H1|]. split; [apply H2|]. intros b Hb.
  assert (HP : exists M m, Some (ps_max_block s) = Some M /\ m <= M /\ block_of 2 m b) by (exists 64, 50; repeat split; cbn; try lia; apply Hb).
  assert (HS : spec_ok 2 s) by (unfold spec_ok, rate_ok; cbn; lia).
  cbn [legal]. split; [intros h [E|[]]; injection E as <-; apply (used_new fast_rfft 2 5 one 64 sp); exact H1|].
  split; auto. split; auto. split; [intros h [E|[]]; injection E as <-; apply (used_new fast_rfft 2 3 two 64 sp); exact H2|].
  split; auto. split; [discriminate|]. split; auto. split; [discriminate|]. split; auto.
Qed.
Print Assumptions C46_never_fails.
Print Assumptions C46_convolvers_are_accepting.

(** ** C47 *)
Section Whole.
  Context {A : arith} (I : conv_if A) (w : nat) (ok : cv I -> Prop).
  Hypothesis (Hw : 0 < w) (HI : accepting I w ok).

  (** prepare, a first convolver, some blocks, a second convolver *)
  Lemma first_second env s b h0 h1 bs0 :
    spec_ok w s -> engine_bounds s = Ok b -> Forall (delivers_ok I ok) env -> no_loads (eng_new I env) ->
    ok (h_cv I h0) -> ok (h_cv I h1) -> fits w (ps_max_block s) bs0 -> bs0 <> [] ->
    exists e outs c', eng_run I (eng_new I env) (Prepare I s :: Others I [Deliver I h0] :: map (Process I) bs0 ++ [Others I [Deliver I h1]]) = Ok (e, outs) /\
      inv I w ok (ps_max_block s) b e /\ no_loads e /\ at_rest e /\ e_commands I e = [h1] /\
      feed (cv_process I) (h_cv I h0) bs0 = Ok (c', outs) /\ e_conv I e = Some (renew I h0 c').
  Proof.
    intros Hs Eb He HN H0 H1 Hf Hne.
    destruct (prepare_front I w ok Hw HI None (eng_new I env) s Hs (proj1 (good_new I w ok env He))) as (b' & e1 & news & Eb' & E1 & I1 & F1 & N1 & [_ X1]).
    assert (b' = b) by congruence. subst b'. destruct (X1 HN) as [-> HN1]. cbn [eng_new e_commands takes fold_left] in F1.
    unfold rest, settle, front_of in F1. cbn [eng_new f_conv f_fade f_pend f_in f_out f_strat e_conv e_fade e_pending e_in e_out e_strategy reset_conv] in F1.
    injection F1 as Q1 Q2 Q3 Q4 Q5 Q6.
    assert (B1 : e_cmd_busy I e1 = 0).
    { apply (run_busy I [Prepare I s] (eng_new I env) e1 []); [reflexivity|]. cbn [eng_run eng_step]. rewrite E1. reflexivity. }
    set (e2 := acts I [Deliver I h0] e1).
    assert (HA : forall e h, e_cmd_busy I e = 0 -> e_commands I e = [] -> acts I [Deliver I h] e = add_log I [Delivered (h_id I h)] (set_commands I [h] 0 e)).
    { intros e h EB EC. cbn [acts fold_left act]. rewrite EB, EC. reflexivity. }
    assert (E2 : e2 = add_log I [Delivered (h_id I h0)] (set_commands I [h0] 0 e1)) by now apply HA.
    assert (I2 : inv I w ok (ps_max_block s) b e2).
    { rewrite E2. destruct I1 as [[] []]. split; split; ecbn; auto. }
    destruct (first_run I w ok Hw HI (ps_max_block s) b bs0 e2 h0) as (e3 & outs & c' & E3 & I3 & HN3 & AL3 & V1 & V2 & Fd & Ec3); auto;
      try (rewrite E2; ecbn; auto; fail).
    { apply Hs. }
    destruct AL3 as (A1 & A2 & A3).
    assert (B3 : e_cmd_busy I e3 = 0).
    { apply (run_busy I (map (Process I) bs0) e2 e3 outs); auto. rewrite E2. reflexivity. }
    set (e4 := acts I [Deliver I h1] e3).
    assert (E4 : e4 = add_log I [Delivered (h_id I h1)] (set_commands I [h1] 0 e3)) by now apply HA.
    exists e4, outs, c'. split.
    { change (Prepare I s :: Others I [Deliver I h0] :: map (Process I) bs0 ++ [Others I [Deliver I h1]])
        with ([Prepare I s; Others I [Deliver I h0]] ++ map (Process I) bs0 ++ [Others I [Deliver I h1]]).
      rewrite run_app. cbn [eng_run eng_step]. rewrite E1. cbn [bind]. fold e2. cbn [bind app]. rewrite run_app, E3. cbn [bind eng_run eng_step].
      fold e4. cbn [bind app]. now rewrite app_nil_r. }
    rewrite E4. split; [destruct I3 as [[] []]; split; split; ecbn; auto|]. split; auto.
    split; [|split; [reflexivity|split; auto]]. unfold at_rest. ecbn. split; auto. split; auto. rewrite V1, V2, E2. ecbn. rewrite Q4, Q5. split; reflexivity.
  Qed.
End Whole.

Lemma well_made_meta {A : arith} (R : rfft A) w m ir M spec c : well_made R w m ir M spec c ->
  c_num_samples c = m /\ c_spec c = spec.
Proof.
  intros (_ & Hn & Hb & _ & _ & _ & _ & _ & _ & _ & E). unfold conv_make in E.
  destruct (conv_block_size _ _) as [bz| |]; cbn [bind] in E; try discriminate.
  destruct (nupc_make R ir _ _) as [nu| |]; cbn [bind] in E; try discriminate. injection E as <-. cbn [c_num_samples c_spec].
  split; auto. destruct ir as [|x ir]; [cbn in Hn; lia|]. cbn [num_samples]. apply Hb. now left.
Qed.
Lemma skipn_channel {A : arith} w M (bs0 bs1 outs0 outs1 : list (audio A)) c : c < w -> fits w M bs0 ->
  length outs0 = length bs0 -> (forall i, i < length bs0 -> exists m, block_of w m (nth i bs0 []) /\ block_of w m (nth i outs0 [])) ->
  channel c outs1 = skipn (total bs0) (channel c (outs0 ++ outs1)).
Proof.
  intros Hc Hf HL HS. assert (HT : length (channel c outs0) = total bs0).
  { clear Hf. revert outs0 HL HS. induction bs0 as [|b bs0 IH]; intros [|o outs0] HL HS; try discriminate; [reflexivity|].
    destruct (HS 0 (Nat.lt_0_succ _)) as (m & [H1 H2] & [H3 H4]). cbn [nth] in *.
    change (o :: outs0) with ([o] ++ outs0). rewrite channel_app, app_length. unfold total. cbn [map list_sum fold_right].
    rewrite (IH outs0) by (try (intros i Hi; apply (HS (S i)); cbn; lia); now injection HL).
    f_equal. unfold channel. cbn [map concat]. rewrite app_nil_r. rewrite (H4 (nth c o [])) by (apply nth_In; lia).
    destruct b as [|x b]; [cbn in H1; lia|]. cbn [num_samples]. symmetry. apply H2. now left. }
  rewrite channel_app, skipn_app, HT, Nat.sub_diag, skipn_all2 by lia. reflexivity.
Qed.

(** The engine is prepared, a response is loaded, some blocks are processed, a second response is loaded, more
    blocks are processed.  Meanwhile the other threads dispose of convolvers in any way ([env]).  What comes
    out is the first convolution, then the cross-fade from the first, going on, to the second, which
    starts from silence. *)
Theorem C47_crossfade : forall (A : arith), arith_laws A -> inv_law A -> forall R : rfft A, rfft_ok R ->
  let I := convolver_if R in
  forall w s b, spec_ok w s -> 0 < w -> engine_bounds s = Ok b ->
  forall m0 ir0 sp0 c0, well_made R w m0 ir0 (ps_max_block s) sp0 c0 ->
  forall m1 ir1 sp1 c1, well_made R w m1 ir1 (ps_max_block s) sp1 c1 ->
  forall n, fade_of b (Z.of_nat m1) (cs_fade sp1) = Ok (kCrossfade, Z.of_nat n) ->
  forall env, no_loads (eng_new I env) ->
  forall bs0 bs1, fits w (ps_max_block s) bs0 -> fits w (ps_max_block s) bs1 -> bs0 <> [] ->
  exists e outs0 outs1,
    eng_run I (eng_new I env)
      (Prepare I s :: Others I [Deliver I {| h_id := 0; h_cv := c0 : cv I |}] :: map (Process I) bs0 ++
       Others I [Deliver I {| h_id := 1; h_cv := c1 : cv I |}] :: map (Process I) bs1) = Ok (e, outs0 ++ outs1) /\
    length outs0 = length bs0 /\ length outs1 = length bs1 /\
    let first bs o := mixed (length ir0) (fun c => nth c ir0 []) (cs_in sp0) (cs_out sp0) bs o in
    let second bs o := mixed (length ir1) (fun c => nth c ir1 []) (cs_in sp1) (cs_out sp1) bs o in
    forall o, o < w ->
      channel o outs0 = first bs0 o /\
      channel o outs1 = blend (fall n) (skipn (total bs0) (first (bs0 ++ bs1) o)) (rise n) (second bs1 o).
Proof.
  intros A L HV R HR I w s b Hs Hw Eb m0 ir0 sp0 c0 W0 m1 ir1 sp1 c1 W1 n Hn env HN bs0 bs1 Hf0 Hf1 Hne.
  set (h0 := {| h_id := 0; h_cv := c0 : cv I |}). set (h1 := {| h_id := 1; h_cv := c1 : cv I |}).
  pose proof (C46_convolvers_are_accepting A L R HR w) as HI.
  assert (He : Forall (delivers_ok I (@used A R w)) env).
  { apply Forall_forall. intros l Hl h Hh. exfalso. exact (HN l Hl h Hh). }
  destruct (first_second I w (@used A R w) Hw HI env s b h0 h1 bs0 Hs Eb He HN) as (e & outs0 & c0' & E & Hi & HN' & Hr & Ec & Fd & Ecv); auto;
    try (eapply used_new; eassumption).
  destruct (well_made_meta R w m1 ir1 _ sp1 c1 W1) as [M1 M2].
  assert (Hfade : fade_of b (cv_samples I (h_cv I h1)) (cv_fade I (h_cv I h1)) = Ok (kCrossfade, Z.of_nat n)).
  { cbn [cv_samples cv_fade convolver_if I h_cv h1]. now rewrite M1, M2. }
  pose proof (bounds_positive w s b Hs Eb) as HP.
  assert (Hn0 : (0 < Z.of_nat n)%Z).
  { apply (fade_len_of I w (@used A R w) (ps_max_block s) b e h1) in Hfade as X; auto. pose proof (fade_len_pos I w Hw b h1 HP) as Y. rewrite X in Y. exact Y. }
  destruct (crossfade_whole I w (@used A R w) Hw HI L HV (ps_max_block s) b e (renew I h0 c0') h1 (Z.of_nat n) bs1 (proj1 (proj2 Hs)) Hi Hr HN' Ecv Ec Hfade Hn0 Hf1)
    as (e' & outs1 & a' & h' & olds & news & E' & Fa & Fh & C & _).
  rewrite Nat2Z.id in C. exists e', outs0, outs1. split.
  { replace (map (Process I) bs0 ++ Others I [Deliver I h1] :: map (Process I) bs1)
      with ((map (Process I) bs0 ++ [Others I [Deliver I h1]]) ++ map (Process I) bs1) by (rewrite <- app_assoc; reflexivity).
    change (Prepare I s :: Others I [Deliver I h0] :: (map (Process I) bs0 ++ [Others I [Deliver I h1]]) ++ map (Process I) bs1)
      with ((Prepare I s :: Others I [Deliver I h0] :: map (Process I) bs0 ++ [Others I [Deliver I h1]]) ++ map (Process I) bs1).
    rewrite run_app, E. cbn [bind]. rewrite E'. reflexivity. }
  assert (B0 : blocks_of w bs0) by (intros x Hx; destruct (Hf0 x Hx) as (k & _ & K); eauto).
  assert (B1 : blocks_of w bs1) by (intros x Hx; destruct (Hf1 x Hx) as (k & _ & K); eauto).
  assert (B01 : blocks_of w (bs0 ++ bs1)) by (intros x Hx; apply in_app_iff in Hx as [Hx|Hx]; auto).
  pose proof (feed_app _ bs0 _ bs1 _ _ _ _ Fd Fa) as Fda.
  destruct (routed_feed L R HR w m0 ir0 _ sp0 c0 bs0 W0 B0) as (x1 & x2 & X & R0).
  pose proof (eq_trans (eq_sym X) Fd) as X'. injection X' as -> ->.
  destruct (routed_feed L R HR w m0 ir0 _ sp0 c0 (bs0 ++ bs1) W0 B01) as (y1 & y2 & Y & R01).
  pose proof (eq_trans (eq_sym Y) Fda) as Y'. injection Y' as -> ->.
  destruct (routed_feed L R HR w m1 ir1 _ sp1 c1 bs1 W1 B1) as (z1 & z2 & Z & R1).
  pose proof (eq_trans (eq_sym Z) Fh) as Z'. injection Z' as -> ->.
  destruct R0 as (L0 & S0 & C0). destruct R01 as (_ & _ & C01). destruct R1 as (_ & _ & C1).
  split; auto. split.
  { clear - E'. revert e outs1 E'. induction bs1 as [|x bs1 IH]; intros e outs1 E'; cbn [map eng_run eng_step] in E'.
    - now injection E' as _ <-.
    - destruct (eng_process I e x) as [[e1 o]| |]; cbn [bind] in E'; try discriminate.
      destruct (eng_run I e1 (map (Process I) bs1)) as [[e2 os]| |] eqn:E2; cbn [bind] in E'; try discriminate. injection E' as <- <-.
      cbn [app length]. f_equal. exact (IH _ _ E2). }
  cbv zeta. intros o Ho. split; [now apply C0|]. destruct (C o Ho) as (_ & _ & ->). f_equal.
  - rewrite <- C01 by auto. apply (skipn_channel w (ps_max_block s)); auto.
  - now apply C1.
Qed.
(** The same with an in/out fade: [bs1] are the blocks until the first half ends. *)
Theorem C47_in_out : forall (A : arith), arith_laws A -> inv_law A -> forall R : rfft A, rfft_ok R ->
  let I := convolver_if R in
  forall w s b, spec_ok w s -> 0 < w -> engine_bounds s = Ok b ->
  forall m0 ir0 sp0 c0, well_made R w m0 ir0 (ps_max_block s) sp0 c0 ->
  forall m1 ir1 sp1 c1, well_made R w m1 ir1 (ps_max_block s) sp1 c1 ->
  forall n, fade_of b (Z.of_nat m1) (cs_fade sp1) = Ok (kInOut, Z.of_nat n) ->
  forall env, no_loads (eng_new I env) ->
  forall bs0 bs1 bs2, fits w (ps_max_block s) bs0 -> fits w (ps_max_block s) bs1 -> fits w (ps_max_block s) bs2 -> bs0 <> [] ->
  total (removelast bs1) < n -> (bs2 <> [] -> n <= total bs1) ->
  exists e outs0 outs1 outs2,
    eng_run I (eng_new I env)
      (Prepare I s :: Others I [Deliver I {| h_id := 0; h_cv := c0 : cv I |}] :: map (Process I) bs0 ++
       Others I [Deliver I {| h_id := 1; h_cv := c1 : cv I |}] :: map (Process I) (bs1 ++ bs2)) = Ok (e, outs0 ++ outs1 ++ outs2) /\
    let first bs o := mixed (length ir0) (fun c => nth c ir0 []) (cs_in sp0) (cs_out sp0) bs o in
    let second bs o := mixed (length ir1) (fun c => nth c ir1 []) (cs_in sp1) (cs_out sp1) bs o in
    forall o, o < w ->
      channel o outs0 = first bs0 o /\
      channel o outs1 = scaled (fall n) (skipn (total bs0) (first (bs0 ++ bs1) o)) /\
      channel o outs2 = scaled (rise n) (second bs2 o).
Proof.
  intros A L HV R HR I w s b Hs Hw Eb m0 ir0 sp0 c0 W0 m1 ir1 sp1 c1 W1 n Hn env HN bs0 bs1 bs2 Hf0 Hf1 Hf2 Hne HT1 HT2.
  set (h0 := {| h_id := 0; h_cv := c0 : cv I |}). set (h1 := {| h_id := 1; h_cv := c1 : cv I |}).
  pose proof (C46_convolvers_are_accepting A L R HR w) as HI.
  assert (He : Forall (delivers_ok I (@used A R w)) env).
  { apply Forall_forall. intros l Hl h Hh. exfalso. exact (HN l Hl h Hh). }
  destruct (first_second I w (@used A R w) Hw HI env s b h0 h1 bs0 Hs Eb He HN) as (e & outs0 & c0' & E & Hi & HN' & Hr & Ec & Fd & Ecv); auto;
    try (eapply used_new; eassumption).
  destruct (well_made_meta R w m1 ir1 _ sp1 c1 W1) as [M1 M2].
  assert (Hfade : fade_of b (cv_samples I (h_cv I h1)) (cv_fade I (h_cv I h1)) = Ok (kInOut, Z.of_nat n)).
  { cbn [cv_samples cv_fade convolver_if I h_cv h1]. now rewrite M1, M2. }
  pose proof (bounds_positive w s b Hs Eb) as HP.
  assert (Hn0 : (0 < Z.of_nat n)%Z).
  { apply (fade_len_of I w (@used A R w) (ps_max_block s) b e h1) in Hfade as X; auto. pose proof (fade_len_pos I w Hw b h1 HP) as Y. rewrite X in Y. exact Y. }
  rewrite <- (Nat2Z.id n) in HT1, HT2.
  destruct (inout_whole I w (@used A R w) Hw HI L HV (ps_max_block s) b e (renew I h0 c0') h1 (Z.of_nat n) bs1 bs2 (proj1 (proj2 Hs)) Hi Hr HN' Ecv Ec Hfade Hn0 Hf1 Hf2 HT1 HT2)
    as (e' & outs1 & outs2 & a' & h' & olds & news & E' & Fa & Fh & C & _).
  rewrite Nat2Z.id in C. exists e', outs0, outs1, outs2. split.
  { replace (map (Process I) bs0 ++ Others I [Deliver I h1] :: map (Process I) (bs1 ++ bs2))
      with ((map (Process I) bs0 ++ [Others I [Deliver I h1]]) ++ map (Process I) (bs1 ++ bs2)) by (rewrite <- app_assoc; reflexivity).
    change (Prepare I s :: Others I [Deliver I h0] :: (map (Process I) bs0 ++ [Others I [Deliver I h1]]) ++ map (Process I) (bs1 ++ bs2))
      with ((Prepare I s :: Others I [Deliver I h0] :: map (Process I) bs0 ++ [Others I [Deliver I h1]]) ++ map (Process I) (bs1 ++ bs2)).
    rewrite run_app, E. cbn [bind]. rewrite E'. reflexivity. }
  assert (B0 : blocks_of w bs0) by (intros x Hx; destruct (Hf0 x Hx) as (k & _ & K); eauto).
  assert (B1 : blocks_of w bs1) by (intros x Hx; destruct (Hf1 x Hx) as (k & _ & K); eauto).
  assert (B2 : blocks_of w bs2) by (intros x Hx; destruct (Hf2 x Hx) as (k & _ & K); eauto).
  assert (B01 : blocks_of w (bs0 ++ bs1)) by (intros x Hx; apply in_app_iff in Hx as [Hx|Hx]; auto).
  pose proof (feed_app _ bs0 _ bs1 _ _ _ _ Fd Fa) as Fda.
  destruct (routed_feed L R HR w m0 ir0 _ sp0 c0 bs0 W0 B0) as (x1 & x2 & X & R0).
  pose proof (eq_trans (eq_sym X) Fd) as X'. injection X' as -> ->.
  destruct (routed_feed L R HR w m0 ir0 _ sp0 c0 (bs0 ++ bs1) W0 B01) as (y1 & y2 & Y & R01).
  pose proof (eq_trans (eq_sym Y) Fda) as Y'. injection Y' as -> ->.
  destruct (routed_feed L R HR w m1 ir1 _ sp1 c1 bs2 W1 B2) as (z1 & z2 & Z & R1).
  pose proof (eq_trans (eq_sym Z) Fh) as Z'. injection Z' as -> ->.
  destruct R0 as (L0 & S0 & C0). destruct R01 as (_ & _ & C01). destruct R1 as (_ & _ & C1).
  cbv zeta. intros o Ho. split; [now apply C0|]. destruct (C o Ho) as (_ & _ & -> & ->). split; f_equal.
  - rewrite <- C01 by auto. apply (skipn_channel w (ps_max_block s)); auto.
  - now apply C1.
Qed.
(** The hypotheses are met over the real numbers. *)
Example C47_hypotheses :
  let s := {| ps_rate_num := 44100; ps_rate_den := 1; ps_max_block := 64; ps_channels := 2 |} in
  let b := {| lower_fade_bound := 4410; upper_fade_bound := 176400; max_crossfade_ir_length := 441000; in_out_fade_length := 17640 |} in
  let sp f := {| cs_in := [0; 1]; cs_out := [1; 0]; cs_fade := f; cs_internal := None |} in
  let ir : audio Rarith := map (map Rdefinitions.IZR) [[1; 2; 3; 4; 5]; [7; 0; 1; 2; 3]]%Z in
  spec_ok 2 s /\ engine_bounds s = Ok b /\ (forall f, exists c, well_made (@fast_rfft Rarith) 2 5 ir 64 (sp f) c) /\
  fade_of b (Z.of_nat 5) kCrossfade = Ok (kCrossfade, 4410%Z) /\ fade_of b (Z.of_nat 5) kInOut = Ok (kInOut, 17640%Z).
Proof.
  cbv zeta. split; [unfold spec_ok, rate_ok; cbn; lia|]. split; [vm_compute; reflexivity|]. split; [|split; vm_compute; reflexivity].
  intros f. apply (well_made_exists Rarith_laws fast_rfft (fast_rfft_ok Rarith_laws)); cbn; try lia.
  split; auto. intros c H; repeat (destruct H as [<-|H]); try destruct H; reflexivity.
Qed.
(** One channel, 10 samples a second, over the field with 8191 elements: from the response 1 2 3 to the response
    5, cross-fade over 1 sample; in/out fade over 2 times 4 samples. *)
Definition c47_run (f : fade_strategy) : res (list (list Z)) :=
  let I := convolver_if (@fast_rfft Zarith) in
  let sp := {| cs_in := [0]; cs_out := [0]; cs_fade := f; cs_internal := None |} in
  c0 <- conv_make fast_rfft ([[1; 2; 3]]%Z : audio Zarith) 16 sp ;;
  c1 <- conv_make fast_rfft ([[5]]%Z : audio Zarith) 16 sp ;;
  ' (_, outs) <- eng_run I (eng_new I [])
    (Prepare I small_spec :: Others I [Deliver I {| h_id := 0; h_cv := c0 : cv I |}] :: map (Process I) [[[1; 0; 1]]; [[1]]]%Z ++
     Others I [Deliver I {| h_id := 1; h_cv := c1 : cv I |}] :: map (Process I) [[[0; 0; 4]]; [[4; 4; 4]]; [[4; 4; 4; 8; 8]]]%Z) ;;
  Ok (map (fun o => channel 0 [o]) outs).
Example C47_example :
  c47_run kCrossfade = Ok [[1; 2; 4]; [3]; [0; 0; 20]; [20; 20; 20]; [20; 20; 20; 40; 40]]%Z /\
  c47_run kInOut = Ok (let q k := zm (k * zinv 4) in [[1; 2; 4]; [3]; [q 15; q 6; q 4]; [0; 0; 0]; [5; 10; 15; 40; 40]])%Z.
Proof. vm_compute. split; reflexivity. Qed.
Print Assumptions C47_crossfade.
Print Assumptions C47_in_out.

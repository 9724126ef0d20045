(** * C80: fades add no clicks, cold convolvers do *)
From Coq Require Import ZArith Reals Lra Lia.
From Verif.Model Require Import Base Arith ArithReal ArithMod Juce Float32 SmoothedValue Convolver ConvolutionEngine.
From Verif.Spec Require Import Transform RealFFT Signal Routing Engine Together Precision Superposition.
From Verif.Proofs Require Import Lists Blocks Streams ComplexAlg EngineProof EngineInv EngineFront EngineFade EngineMore EngineLevels RealFFTProof Norms.
From Verif.Props Require Import PartitionProps ConvolverProps EngineProps FadeProps WholeProps TogetherProps EngineLinearProps.
Local Open Scope nat_scope.

(** [D] bounds the change from one sample to the next; [P] bounds the samples. *)
Definition gentle (D : R) (l : list R) : Prop := forall t, S t < length l -> (Rabs (nth (S t) l 0 - nth t l 0) <= D)%R.
Definition below (P : R) (l : list R) : Prop := forall x, In x l -> (Rabs x <= P)%R.

Section Gains.
  Context (n : nat) (Hn : 0 < n).
  Lemma INR_n : (0 < INR n)%R.
  Proof. apply lt_0_INR. exact Hn. Qed.
  Lemma rise_R t : @rise Rarith n t = (INR (Nat.min (S t) n) / INR n)%R.
  Proof. unfold rise. rewrite sofnat_INR. reflexivity. Qed.
  Lemma fall_R t : @fall Rarith n t = (INR (n - S t) / INR n)%R.
  Proof. unfold fall. rewrite sofnat_INR. reflexivity. Qed.
  (** the level before sample [t] *)
  Definition up t : R := (INR (Nat.min t n) / INR n)%R.
  Definition down t : R := (INR (n - t) / INR n)%R.
  Lemma level a : (a <= n)%nat -> (0 <= INR a / INR n <= 1)%R.
  Proof.
    intros H. apply le_INR in H. pose proof (pos_INR a). pose proof INR_n. split; [unfold Rdiv; apply Rmult_le_pos; [lra|left; apply Rinv_0_lt_compat; lra]|].
    apply (Rmult_le_reg_r (INR n)); [lra|]. unfold Rdiv. rewrite Rmult_assoc, Rinv_l by lra. lra.
  Qed.
  Lemma up_ok t : (0 <= up t <= 1)%R. Proof. apply level. lia. Qed.
  Lemma down_ok t : (0 <= down t <= 1)%R. Proof. apply level. lia. Qed.
  Lemma both t : (up t + down t = 1)%R.
  Proof.
    unfold up, down, Rdiv. pose proof INR_n. rewrite <- Rmult_plus_distr_r, <- plus_INR.
    replace (Nat.min t n + (n - t)) with n by lia. apply Rinv_r. lra.
  Qed.
  Lemma up_step t : (0 <= up (S t) - up t <= / INR n)%R.
  Proof.
    unfold up, Rdiv. pose proof INR_n. rewrite <- Rmult_minus_distr_r. assert (0 < / INR n)%R by (apply Rinv_0_lt_compat; lra).
    assert (0 <= INR (Nat.min (S t) n) - INR (Nat.min t n) <= 1)%R.
    { destruct (Nat.le_gt_cases n t).
      - rewrite !Nat.min_r by lia. lra.
      - rewrite !Nat.min_l by lia. rewrite S_INR. lra. }
    split; nra.
  Qed.
  Lemma down_step t : (0 <= down t - down (S t) <= / INR n)%R.
  Proof. pose proof (both t). pose proof (both (S t)). pose proof (up_step t). lra. Qed.

  (** one step at levels [g] and then [g'] *)
  Lemma step_scaled D P x x' g g' e : (0 <= g' <= 1)%R -> (Rabs (g' - g) <= e)%R -> (Rabs (x' - x) <= D)%R -> (Rabs x <= P)%R ->
    (Rabs (x' * g' - x * g) <= D * g' + P * e)%R.
  Proof.
    intros H1 H2 H3 H4. replace (x' * g' - x * g)%R with ((x' - x) * g' + x * (g' - g))%R by ring.
    eapply Rle_trans; [apply Rabs_triang|]. rewrite !Rabs_mult. rewrite (Rabs_pos_eq g') by lra.
    pose proof (Rabs_pos x). pose proof (Rabs_pos (g' - g)). pose proof (Rabs_pos (x' - x)).
    apply Rplus_le_compat; [apply Rmult_le_compat_r; lra|]. apply Rmult_le_compat; lra.
  Qed.
  Lemma below_nth P l t : (0 <= P)%R -> below P l -> (Rabs (nth t l 0) <= P)%R.
  Proof.
    intros HP H. destruct (Nat.lt_ge_cases t (length l)) as [L|L]; [apply H, nth_In, L|]. rewrite nth_overflow by exact L. rewrite Rabs_R0. exact HP.
  Qed.

  Lemma gentle_blend D P z olds news : (0 <= D)%R -> (0 <= P)%R -> length olds = length news -> gentle D (z :: olds) -> gentle D news ->
    below P (z :: olds) -> below P news -> gentle (D + 2 * (P / INR n)) (z :: @blend Rarith (fall n) olds (rise n) news).
  Proof.
    intros HD HP HL G1 G2 B1 B2 t Ht. cbn [length] in Ht. unfold blend in *. rewrite tab_length in Ht. change (S t < S (@length R news)) in Ht. change (@length R olds = @length R news) in HL.
    set (y := @tab R (length news) (fun t => (nth t olds 0 * @fall Rarith n t + nth t news 0 * @rise Rarith n t)%R)) in *.
    assert (Ey : forall k, k < length news -> nth k y 0%R = (nth k olds 0 * down (S k) + nth k news 0 * up (S k))%R).
    { intros k Hk. unfold y. rewrite tab_nth by exact Hk. rewrite fall_R, rise_R. reflexivity. }
    pose proof INR_n. pose proof (up_ok (S t)). pose proof (down_ok (S t)). pose proof (both (S t)).
    pose proof (down_step t) as X1. pose proof (up_step t) as X2.
    assert (Gd : (Rabs (down (S t) - down t) <= / INR n)%R) by (rewrite Rabs_minus_sym, Rabs_pos_eq; lra).
    assert (Gu : (Rabs (up (S t) - up t) <= / INR n)%R) by (rewrite Rabs_pos_eq; lra).
    change (Rabs (nth (S t) (z :: y) 0 - nth t (z :: y) 0) <= D + 2 * (P / INR n))%R. cbn [nth].
    assert (E0 : match t with 0 => z | S m => nth m y 0%R end =
      (nth t (z :: olds) 0 * down t + match t with 0 => 0 | S m => nth m news 0 end * up t)%R).
    { destruct t as [|t]; [|rewrite (Ey t) by (clear - Ht; lia); reflexivity]. cbn [nth]. unfold down. rewrite Nat.sub_0_r. unfold Rdiv. rewrite Rinv_r by lra. ring. }
    rewrite E0, Ey by lia.
    pose proof (step_scaled D P (nth t (z :: olds) 0%R) (nth t olds 0%R) _ _ _ H1 Gd) as S1.
    specialize (S1 ltac:(apply (G1 t); cbn [length]; lia) ltac:(apply below_nth; auto)).
    assert (S2 : (Rabs (nth t news 0 * up (S t) - match t with 0 => 0 | S m => nth m news 0 end * up t) <= D * up (S t) + P * / INR n)%R).
    { destruct t as [|t].
      - rewrite Rmult_0_l, Rminus_0_r, Rabs_mult, (Rabs_pos_eq (up 1)) by lra.
        assert (up 0 = 0)%R by (unfold up, Rdiv; cbn [Nat.min INR]; ring). assert (up 1 <= / INR n)%R by lra.
        pose proof (below_nth P news 0 HP B2). pose proof (Rabs_pos (nth 0 news 0%R)). nra.
      - apply step_scaled; auto; [apply (G2 t); lia|apply below_nth; auto]. }
    match goal with |- (Rabs (?a + ?b - (?c + ?d)) <= _)%R => replace (a + b - (c + d))%R with ((a - c) + (b - d))%R by ring end.
    eapply Rle_trans; [apply Rabs_triang|]. unfold Rdiv. nra.
  Qed.

  Lemma gentle_scaled D P z olds news : (0 <= D)%R -> (0 <= P)%R -> (news <> [] -> n <= length olds) -> gentle D (z :: olds) -> gentle D news ->
    below P (z :: olds) -> below P news -> gentle (D + P / INR n) (z :: @scaled Rarith (fall n) olds ++ @scaled Rarith (rise n) news).
  Proof.
    intros HD HP HN G1 G2 B1 B2 t Ht. cbn [length] in Ht. rewrite app_length in Ht. unfold scaled in *. rewrite !tab_length in Ht. change (S t < S (@length R olds + @length R news)) in Ht.
    set (y := @tab R (length olds) (fun t => (nth t olds 0 * @fall Rarith n t)%R)) in *. set (v := @tab R (length news) (fun t => (nth t news 0 * @rise Rarith n t)%R)) in *.
    assert (Ey : forall k, k < length olds -> nth k y 0%R = (nth k olds 0 * down (S k))%R).
    { intros k Hk. unfold y. rewrite tab_nth by exact Hk. rewrite fall_R. reflexivity. }
    assert (Ev : forall k, k < length news -> nth k v 0%R = (nth k news 0 * up (S k))%R).
    { intros k Hk. unfold v. rewrite tab_nth by exact Hk. rewrite rise_R. reflexivity. }
    assert (Ly : length y = length olds) by apply tab_length.
    pose proof INR_n. assert (Hi : (0 < / INR n)%R) by (apply Rinv_0_lt_compat; lra).
    change (Rabs (nth (S t) (z :: y ++ v) 0 - nth t (z :: y ++ v) 0) <= D + P / INR n)%R. cbn [nth].
    assert (Fin : forall g x x' g', (0 <= g' <= 1)%R -> (Rabs (g' - g) <= / INR n)%R -> (Rabs (x' - x) <= D)%R -> (Rabs x <= P)%R ->
      (Rabs (x' * g' - x * g) <= D + P / INR n)%R).
    { intros g x x' g' I1 I2 I3 I4. eapply Rle_trans; [apply (step_scaled D P x x' g g' _ I1 I2 I3 I4)|]. unfold Rdiv. nra. }
    destruct (Nat.lt_ge_cases t (length olds)) as [L|L].
    - rewrite app_nth1 by lia. rewrite Ey by exact L.
      assert (E0 : match t with 0 => z | S m => nth m (y ++ v) 0%R end = (nth t (z :: olds) 0 * down t)%R).
      { destruct t as [|t]; [cbn [nth]; unfold down; rewrite Nat.sub_0_r; unfold Rdiv; rewrite Rinv_r by lra; ring|].
        rewrite app_nth1 by lia. rewrite Ey by lia. reflexivity. }
      rewrite E0. apply Fin; [apply down_ok| |apply (G1 t); cbn [length]; lia|apply below_nth; auto].
      pose proof (down_step t). rewrite Rabs_minus_sym, Rabs_pos_eq; lra.
    - rewrite app_nth2 by lia. rewrite Ly, Ev by lia. destruct (Nat.eq_dec t (length olds)) as [->|Hne].
      + assert (news <> []) by (intros ->; cbn in Ht; lia). specialize (HN H0).
        assert (E0 : match length olds with 0 => z | S m => nth m (y ++ v) 0%R end = 0%R).
        { destruct (length olds) as [|m] eqn:El; [lia|]. rewrite app_nth1 by lia. rewrite Ey by lia. unfold down. replace (n - S m) with 0 by lia.
          cbn [INR]. unfold Rdiv. ring. }
        rewrite E0, Rminus_0_r, Nat.sub_diag, Rabs_mult, (Rabs_pos_eq (up 1)) by apply up_ok.
        assert (up 0 = 0)%R by (unfold up, Rdiv; cbn [Nat.min INR]; ring). pose proof (up_step 0). pose proof (up_ok 1).
        pose proof (below_nth P news 0 HP B2). pose proof (Rabs_pos (nth 0 news 0%R)). unfold Rdiv. nra.
      + destruct t as [|t]; [lia|]. rewrite app_nth2 by lia. rewrite Ly, Ev by lia. replace (S t - length olds) with (S (t - length olds)) in * by lia.
        apply Fin; [apply up_ok| |apply (G2 (t - length olds)); lia|apply below_nth; auto].
        pose proof (up_step (S (t - length olds))). rewrite Rabs_pos_eq; lra.
  Qed.
End Gains.

(** A cross-fade from one convolver to another, from any state in which one begins.  [z] is the last sample heard before.  If what
    the two convolvers put out changes by at most [D] from sample to sample and stays below [P], what is heard changes by at most
    [D + 2 * P / n]: at the beginning of the fade, in it, where it ends, and after it. *)
Theorem C80_crossfade : forall (I : conv_if Rarith) w ok, 0 < w -> accepting I w ok ->
  forall env l s e b, reached I w ok env l s e -> engine_bounds s = Ok b -> no_loads e ->
  forall a h n, begins b kCrossfade a h n e -> e_commands I e = [h] ->
  forall bs, fits w (ps_max_block s) bs ->
  exists e' outs a' h' (olds news : list (audio Rarith)),
    eng_run I e (map (Process I) bs) = Ok (e', outs) /\
    feed (cv_process I) (h_cv I a) bs = Ok (a', olds) /\ feed (cv_process I) (h_cv I h) bs = Ok (h', news) /\
    forall c z D P, c < w -> (0 <= D)%R -> (0 <= P)%R ->
      gentle D (z :: channel c olds) -> gentle D (channel c news) -> below P (z :: channel c olds) -> below P (channel c news) ->
      gentle (D + 2 * (P / INR n)) (z :: channel c outs).
Proof.
  intros I w ok Hw HI env l s e b HR Eb HN a h n HB Ec bs Hf.
  destruct HB as (B1 & B2 & B3 & B4).
  destruct (reached_tracked I w ok Hw HI env l s e HR) as (Hsp & b' & Eb' & Hi). assert (b' = b) by congruence. subst b'.
  pose proof (bounds_positive w s b Hsp Eb) as HP.
  assert (Hn : (0 < Z.of_nat n)%Z).
  { pose proof B4 as B5. apply (fade_len_of I w ok (ps_max_block s) b e h) in B5; auto. pose proof (fade_len_pos I w Hw b h HP) as X. rewrite B5 in X. exact X. }
  destruct (crossfade_whole I w ok Hw HI Rarith_laws Rarith_inv (ps_max_block s) b e a h (Z.of_nat n) bs (proj1 (proj2 Hsp)) Hi B1 HN B2 Ec B4 Hn Hf)
    as (e' & outs & a' & h' & olds & news & E & Fa & Fh & C & _).
  rewrite Nat2Z.id in *. exists e', outs, a', h', olds, news. do 3 (split; [assumption|]). intros c z D P Hc HD HP0 G1 G2 Bo Bn.
  destruct (C c Hc) as (L1 & L2 & ->). apply gentle_blend; auto; [lia|]. exact (eq_trans L1 (eq_sym L2)).
Qed.
Print Assumptions C80_crossfade.

(** An in/out fade; [bs1] are the blocks until the first half ends. *)
Theorem C80_in_out : forall (I : conv_if Rarith) w ok, 0 < w -> accepting I w ok ->
  forall env l s e b, reached I w ok env l s e -> engine_bounds s = Ok b -> no_loads e ->
  forall a h n, begins b kInOut a h n e -> e_commands I e = [h] ->
  forall bs1 bs2, fits w (ps_max_block s) (bs1 ++ bs2) -> total (removelast bs1) < n -> (bs2 <> [] -> n <= total bs1) ->
  exists e' outs a' h' (olds news : list (audio Rarith)),
    eng_run I e (map (Process I) (bs1 ++ bs2)) = Ok (e', outs) /\
    feed (cv_process I) (h_cv I a) bs1 = Ok (a', olds) /\ feed (cv_process I) (h_cv I h) bs2 = Ok (h', news) /\
    forall c z D P, c < w -> (0 <= D)%R -> (0 <= P)%R ->
      gentle D (z :: channel c olds) -> gentle D (channel c news) -> below P (z :: channel c olds) -> below P (channel c news) ->
      gentle (D + P / INR n) (z :: channel c outs).
Proof.
  intros I w ok Hw HI env l s e b HR Eb HN a h n HB Ec bs1 bs2 Hf H1 H2.
  destruct (C37_whole Rarith Rarith_laws Rarith_inv I w ok Hw HI env l s e b HR Eb HN a h n HB Ec bs1 bs2 Hf H1 H2)
    as (e' & outs1 & outs2 & a' & h' & olds & news & E & Fa & Fh & C & _).
  exists e', (outs1 ++ outs2), a', h', olds, news. do 3 (split; [assumption|]). intros c z D P Hc HD HP G1 G2 Bo Bn.
  destruct (C c Hc) as (L1 & E1 & E2). rewrite channel_app, E1, E2.
  assert (L : length (channel c olds) = total bs1) by (rewrite <- L1, E1; unfold scaled; now rewrite tab_length).
  apply gentle_scaled; auto; [lia|]. intros Hnews.
  assert (Hb : bs2 <> []) by (intros ->; cbn [feed] in Fh; injection Fh as _ <-; apply Hnews; reflexivity).
  specialize (H2 Hb). apply (Nat.le_trans _ _ _ H2). apply Nat.eq_le_incl. symmetry. exact L.
Qed.
Print Assumptions C80_in_out.

Lemma exists_last_or_nil (l : list R) : l = [] \/ exists l' x, l = l' ++ [x].
Proof. destruct l as [|y l]; [now left|right]. destruct (@exists_last _ (y :: l)) as (l' & x & ->); [discriminate|eauto]. Qed.
Lemma gentle_join D l v z : gentle D l -> gentle D (z :: v) -> z = last l z -> gentle D (l ++ v).
Proof.
  intros G1 G2 Hz t Ht. rewrite app_length in Ht. destruct (Nat.lt_ge_cases (S t) (length l)) as [L|L].
  - rewrite !app_nth1 by lia. apply G1, L.
  - destruct (Nat.eq_dec (S t) (length l)) as [E|E].
    + rewrite app_nth2, app_nth1 by lia. replace (S t - length l) with 0 by lia. destruct v as [|x v]; [cbn in Ht; lia|].
      specialize (G2 0 ltac:(cbn; lia)). cbn [nth] in *.
      assert (El : nth t l 0%R = z).
      { rewrite Hz. destruct (@exists_last _ l) as (l' & x' & ->); [intros ->; discriminate|]. rewrite last_last. rewrite app_length in E. cbn in E.
        rewrite app_nth2 by lia. replace (t - length l') with 0 by lia. reflexivity. }
      rewrite El. exact G2.
    + rewrite !app_nth2 by lia. replace (S t - length l) with (S (t - length l)) by lia. specialize (G2 (S (t - length l))). cbn [length nth] in G2. apply G2. lia.
Qed.

(** What the recording continues with does not change what came before. *)
Lemma mixed_before w n (ir : audio Rarith) inputs outputs (bs0 bs1 : list (audio Rarith)) o :
  (forall c, c < n -> nth c inputs 0 < w) -> blocks_of w bs0 -> o < w ->
  mixed n (fun c => nth c ir []) inputs outputs bs0 o = firstn (total bs0) (mixed n (fun c => nth c ir []) inputs outputs (bs0 ++ bs1) o).
Proof.
  intros Hin Hb Ho. assert (LT : forall c, c < w -> length (channel c bs0) = total bs0) by (intros c Hc; apply (channel_total w); auto).
  unfold mixed. rewrite channel_app, app_length, (LT o Ho).
  apply (nth_ext _ _ s0 s0); [rewrite firstn_length, !tab_length; lia|].
  intros t Ht. rewrite tab_length in Ht. rewrite tab_nth by exact Ht. rewrite nth_firstn', (proj2 (Nat.ltb_lt _ _) Ht). rewrite tab_nth by lia.
  apply ssum_ext. intros c Hc. destruct (_ =? o); [|reflexivity]. rewrite channel_app. unfold convolve.
  pose proof (LT _ (Hin c Hc)) as Lc. rewrite !tab_nth by (rewrite ?app_length; lia).
  unfold conv_at. apply ssum_ext. intros j Hj. rewrite app_nth1 by lia. reflexivity.
Qed.

(** From the construction of the engine, with the real convolvers: the first response plays, the second arrives, and both signals
    are gentle: so is what is heard, throughout. *)
Theorem C80_change : forall F : rfft Rarith, rfft_ok F ->
  let I := convolver_if F in
  forall w s b, spec_ok w s -> 0 < w -> engine_bounds s = Ok b ->
  forall m0 ir0 sp0 c0, well_made F w m0 ir0 (ps_max_block s) sp0 c0 ->
  forall m1 ir1 sp1 c1, well_made F w m1 ir1 (ps_max_block s) sp1 c1 ->
  forall n, 0 < n -> fade_of b (Z.of_nat m1) (cs_fade sp1) = Ok (kCrossfade, Z.of_nat n) ->
  forall env, no_loads (eng_new I env) ->
  forall bs0 bs1, fits w (ps_max_block s) bs0 -> fits w (ps_max_block s) bs1 -> bs0 <> [] ->
  exists e outs,
    eng_run I (eng_new I env)
      (Prepare I s :: Others I [Deliver I {| h_id := 0; h_cv := c0 : cv I |}] :: map (Process I) bs0 ++
       Others I [Deliver I {| h_id := 1; h_cv := c1 : cv I |}] :: map (Process I) bs1) = Ok (e, outs) /\
    forall o D P, o < w -> (0 <= D)%R -> (0 <= P)%R ->
    let first := @mixed Rarith (length ir0) (fun c => nth c ir0 []) (cs_in sp0) (cs_out sp0) (bs0 ++ bs1) o in
    let second := @mixed Rarith (length ir1) (fun c => nth c ir1 []) (cs_in sp1) (cs_out sp1) bs1 o in
    gentle D first -> gentle D second -> below P first -> below P second ->
    gentle (D + 2 * (P / INR n)) (channel o outs).
Proof.
  intros F HF I w s b Hs Hw Eb m0 ir0 sp0 c0 W0 m1 ir1 sp1 c1 W1 n Hn Hfade env HN bs0 bs1 F0 F1 Hne.
  destruct (C47_crossfade Rarith Rarith_laws Rarith_inv F HF w s b Hs Hw Eb m0 ir0 sp0 c0 W0 m1 ir1 sp1 c1 W1 n Hfade env HN bs0 bs1 F0 F1 Hne)
    as (e & outs0 & outs1 & E & _ & _ & C).
  exists e, (outs0 ++ outs1). split; [exact E|]. intros o D P Ho HD HP first second G1 G2 B1 B2.
  destruct (C o Ho) as [C0 C1]. rewrite channel_app, C0, C1. fold first second.
  assert (Bb : forall bs, fits w (ps_max_block s) bs -> blocks_of w bs) by (intros bs Hb; exact (@fits_blocks Rarith w _ bs Hb)).
  assert (L0 : length (channel o bs0) = total bs0) by (apply (channel_total w); auto).
  assert (L1 : length (channel o bs1) = total bs1) by (apply (channel_total w); auto).
  assert (Lf : @length R first = total bs0 + total bs1).
  { unfold first, mixed. transitivity (length (channel o (bs0 ++ bs1))); [apply tab_length|]. rewrite channel_app, app_length. lia. }
  assert (Ls : @length R second = total bs1) by (unfold second, mixed; etransitivity; [apply tab_length|exact L1]).
  assert (Hin : forall c, c < length ir0 -> nth c (cs_in sp0) 0 < w).
  { pose proof W0 as (_ & _ & _ & _ & _ & _ & Hci & Hcin & _). intros q Hq. apply Hcin.
    assert (Hq2 : q < length (cs_in sp0)) by exact (Nat.lt_le_trans _ _ _ Hq Hci).
    rewrite <- (firstn_skipn (length ir0) (cs_in sp0)) at 1. rewrite app_nth1; [apply nth_In|]; rewrite firstn_length; apply Nat.min_glb_lt; assumption. }
  rewrite (mixed_before w (length ir0) ir0 (cs_in sp0) (cs_out sp0) bs0 bs1 o Hin (Bb _ F0) Ho). fold first.
  change (@firstn (sample Rarith)) with (@firstn R). change (@skipn (sample Rarith)) with (@skipn R).
  set (l := @firstn R (total bs0) first). set (r := @skipn R (total bs0) first).
  assert (Efr : first = l ++ r) by (symmetry; apply firstn_skipn).
  assert (Ll : length l = total bs0) by (unfold l; rewrite firstn_length; lia).
  assert (Lr : @length R r = @length R second) by (unfold r; rewrite skipn_length; lia).
  assert (Hg : forall t, S t < @length R first -> (Rabs (nth (S t) first 0 - nth t first 0) <= D)%R) by exact G1.
  assert (Gl : gentle D l).
  { intros t Ht. specialize (Hg t). rewrite Efr, app_length in Hg. rewrite !app_nth1 in Hg by lia. apply Hg. lia. }
  assert (Bl : below P l) by (intros x Hx; apply B1; rewrite Efr; apply in_app_iff; auto).
  assert (Br : below P r) by (intros x Hx; apply B1; rewrite Efr; apply in_app_iff; auto).
  pose proof (lt_INR 0 n Hn) as HNn. cbn [INR] in HNn. assert (HPn : (0 <= P / INR n)%R) by (unfold Rdiv; apply Rmult_le_pos; [lra|left; apply Rinv_0_lt_compat; lra]).
  set (z := last l (nth 0 r 0%R)).
  assert (Hz : z = last l z) by (unfold z; destruct l; [reflexivity|]; clear; revert r0; induction l as [|y l IH]; intros x; [reflexivity|apply (IH y)]).
  assert (Gr : gentle D (z :: r)).
  { intros t Ht. cbn [length] in Ht. destruct t as [|t].
    - cbn [nth]. unfold z. destruct (exists_last_or_nil l) as [En|(l' & x & En)].
      + rewrite En. cbn [last]. rewrite Rminus_diag_eq by reflexivity. rewrite Rabs_R0. exact HD.
      + rewrite En, last_last. specialize (Hg (length l')). rewrite Efr, En, <- app_assoc in Hg. rewrite !app_length in Hg. cbn [length app] in Hg.
        rewrite !app_nth2 in Hg by lia. replace (S (length l') - length l') with 1 in Hg by lia. rewrite Nat.sub_diag in Hg. cbn [nth] in Hg. apply Hg. lia.
    - cbn [nth]. specialize (Hg (length l + t)). rewrite Efr, app_length in Hg. rewrite !app_nth2 in Hg by lia.
      replace (S (length l + t) - length l) with (S t) in Hg by lia. replace (length l + t - length l) with t in Hg by lia. apply Hg. lia. }
  assert (Bz : below P (z :: r)).
  { intros x [<-|Hx]; [|auto]. unfold z. destruct (exists_last_or_nil l) as [En|(l' & y & En)].
    - rewrite En. cbn [last]. apply below_nth; auto.
    - rewrite En, last_last. apply Bl. rewrite En. apply in_app_iff. right. now left. }
  apply (gentle_join _ _ _ z); [|exact (gentle_blend n Hn D P z r second HD HP Lr Gr G2 Bz B2)|exact Hz].
  intros t Ht. eapply Rle_trans; [apply (Gl t Ht)|]. lra.
Qed.
Print Assumptions C80_change.

(** ** In terms of the input *)
Section Smooth.
  (** the modulus of a weighted sum of bounded samples *)
  Lemma weighted_loud (h : list R) (z : nat -> R) D t : (0 <= D)%R -> (forall i, i <= t -> (Rabs (z i) <= D)%R) ->
    (Rabs (rsum (S t) (fun j => nth j h 0 * z (t - j)%nat)) <= rsum (length h) (fun j => Rabs (nth j h 0)) * D)%R.
  Proof.
    intros HD H. set (x := tab (S t) z). assert (Lx : forall i, i <= t -> nth i x 0%R = z i) by (intros i Hi; unfold x; apply tab_nth; lia).
    pose proof (conv_at_loud 1 Nat.lt_0_1 D HD h x t) as X. specialize (X ltac:(intros i Hi; rewrite Lx by exact Hi; apply H, Hi)).
    unfold conv_at in X. rewrite ssum_rsum in X. erewrite rsum_ext; [exact X|]. intros j Hj. cbn [smul Rarith]. rewrite Lx by lia. reflexivity.
  Qed.
  (** from one sample to the next, a convolution moves by no more than the loudness of the response times what the input moves by *)
  Lemma convolve_step (h x : list R) D t : (0 <= D)%R -> gentle D (0%R :: x) -> S t < length x ->
    (Rabs (nth (S t) (@convolve Rarith h x) 0 - nth t (@convolve Rarith h x) 0) <= rsum (length h) (fun j => Rabs (nth j h 0)) * D)%R.
  Proof.
    intros HD Hx Ht.
    assert (E : forall u, u < length x -> nth u (@convolve Rarith h x) 0%R = @conv_at Rarith h x u).
    { intros u Hu. unfold convolve. apply tab_nth. exact Hu. }
    rewrite !E by lia. unfold conv_at. rewrite !ssum_rsum. cbn [smul Rarith].
    assert (E2 : rsum (S t) (fun j => (nth j h 0 * nth (t - j) x 0)%R) = rsum (S (S t)) (fun j => (nth j h 0 * nth (S t - j) (0%R :: x) 0)%R)).
    { cbn [rsum]. rewrite !Nat.sub_diag. replace (S t - t)%nat with 1 by lia. cbn [nth]. rewrite Rmult_0_r, Rplus_0_r. f_equal.
      apply rsum_ext. intros j Hj. replace (S t - j) with (S (t - j)) by lia. reflexivity. }
    change (Rabs (rsum (S (S t)) (fun j => (nth j h 0 * nth (S t - j) x 0)%R) - rsum (S t) (fun j => (nth j h 0 * nth (t - j) x 0)%R)) <=
      rsum (length h) (fun j => Rabs (nth j h 0)) * D)%R.
    rewrite E2, <- rsum_minus.
    rewrite (rsum_ext _ _ (fun j => (nth j h 0 * (fun i => nth i x 0 - nth i (0 :: x) 0)%R (S t - j)%nat)%R)) by (intros; ring).
    apply (weighted_loud h (fun i => nth i x 0 - nth i (0 :: x) 0)%R D (S t)); [exact HD|]. intros i Hi. exact (Hx i ltac:(cbn [length]; lia)).
  Qed.
  Context (w : nat) (Hw : 0 < w) (spec : conv_spec) (ir : audio Rarith).
  Context (Hin : forall c, c < length ir -> nth c (cs_in spec) 0 < w) (bs : list (audio Rarith)) (Hb : blocks_of w bs).
  Let lengths c : c < w -> length (channel c bs) = total bs.
  Proof. intros Hc. apply (channel_total w); auto. Qed.

  Lemma mixed_gentle D G o : o < w -> (0 <= D)%R -> (forall c, c < w -> gentle D (0%R :: channel c bs)) -> (loudness spec ir o <= G)%R ->
    gentle (G * D) (@mixed Rarith (length ir) (fun c => nth c ir []) (cs_in spec) (cs_out spec) bs o).
  Proof.
    intros Ho HD H HG t Ht. unfold mixed in Ht. rewrite tab_length, (lengths o Ho) in Ht. unfold mixed.
    assert (E : forall (f : nat -> R) u, u < total bs -> nth u (tab (length (channel o bs)) f) 0%R = f u) by (intros f u Hu; apply tab_nth; rewrite (lengths o Ho); exact Hu).
    rewrite !E by lia. rewrite !ssum_rsum, <- rsum_minus. eapply Rle_trans; [apply rsum_abs|].
    apply Rle_trans with (loudness spec ir o * D)%R; [|apply Rmult_le_compat_r; auto]. unfold loudness. rewrite Rmult_comm, <- rsum_scal.
    apply rsum_le. intros c Hc. change (@s0 Rarith) with 0%R. destruct (_ =? o); [|rewrite Rminus_diag_eq by reflexivity; rewrite Rabs_R0; lra].
    rewrite (Rmult_comm D). apply convolve_step; auto. assert (Ex : @length R (channel (nth c (cs_in spec) 0) bs) = total bs) by exact (lengths _ (Hin c Hc)). lia.
  Qed.
  Lemma mixed_below P G o : o < w -> (0 <= P)%R -> (forall c, c < w -> below P (channel c bs)) -> (loudness spec ir o <= G)%R ->
    below (G * P) (@mixed Rarith (length ir) (fun c => nth c ir []) (cs_in spec) (cs_out spec) bs o).
  Proof.
    intros Ho HP H HG x Hx. destruct (In_nth _ _ 0%R Hx) as (t & Ht & <-). unfold mixed in Ht. rewrite tab_length, (lengths o Ho) in Ht. unfold mixed.
    assert (E : forall (f : nat -> R) u, u < total bs -> nth u (tab (length (channel o bs)) f) 0%R = f u) by (intros f u Hu; apply tab_nth; rewrite (lengths o Ho); exact Hu).
    rewrite E by lia. rewrite ssum_rsum. eapply Rle_trans; [apply rsum_abs|].
    apply Rle_trans with (loudness spec ir o * P)%R; [|apply Rmult_le_compat_r; auto]. unfold loudness. rewrite Rmult_comm, <- rsum_scal.
    apply rsum_le. intros c Hc. change (@s0 Rarith) with 0%R. destruct (_ =? o); [|rewrite Rabs_R0; lra].
    rewrite (Rmult_comm P). unfold convolve. assert (Ex : @length R (channel (nth c (cs_in spec) 0) bs) = total bs) by exact (lengths _ (Hin c Hc)).
    assert (E2 : forall (f : nat -> R), nth t (tab (length (channel (nth c (cs_in spec) 0) bs)) f) 0%R = f t) by (intros f; apply tab_nth; rewrite (lengths _ (Hin c Hc)); exact Ht).
    rewrite E2. apply (conv_at_loud 1 Nat.lt_0_1 P HP). intros i Hi. apply below_nth; [exact HP|]. apply H. apply Hin, Hc.
  Qed.
End Smooth.

(** If the input is gentle (also where it begins), and close to silence at the moment at which the second convolver is taken up, then
    so is what is heard: [G] bounds how much louder either response can make the channel. *)
Theorem C80_gentle_input : forall F : rfft Rarith, rfft_ok F ->
  let I := convolver_if F in
  forall w s b, spec_ok w s -> 0 < w -> engine_bounds s = Ok b ->
  forall m0 ir0 sp0 c0, well_made F w m0 ir0 (ps_max_block s) sp0 c0 ->
  forall m1 ir1 sp1 c1, well_made F w m1 ir1 (ps_max_block s) sp1 c1 ->
  forall n, 0 < n -> fade_of b (Z.of_nat m1) (cs_fade sp1) = Ok (kCrossfade, Z.of_nat n) ->
  forall env, no_loads (eng_new I env) ->
  forall bs0 bs1, fits w (ps_max_block s) bs0 -> fits w (ps_max_block s) bs1 -> bs0 <> [] ->
  exists e outs,
    eng_run I (eng_new I env)
      (Prepare I s :: Others I [Deliver I {| h_id := 0; h_cv := c0 : cv I |}] :: map (Process I) bs0 ++
       Others I [Deliver I {| h_id := 1; h_cv := c1 : cv I |}] :: map (Process I) bs1) = Ok (e, outs) /\
    forall o D P G, o < w -> (0 <= D)%R -> (0 <= P)%R -> (0 <= G)%R ->
    (forall c, c < w -> gentle D (0%R :: channel c (bs0 ++ bs1)) /\ below P (channel c (bs0 ++ bs1)) /\ (Rabs (nth 0 (channel c bs1) 0) <= D)%R) ->
    (loudness sp0 ir0 o <= G)%R -> (loudness sp1 ir1 o <= G)%R ->
    gentle (G * D + 2 * (G * P / INR n)) (channel o outs).
Proof.
  intros F HF I w s b Hs Hw Eb m0 ir0 sp0 c0 W0 m1 ir1 sp1 c1 W1 n Hn Hfade env HN bs0 bs1 F0 F1 Hne.
  destruct (C80_change F HF w s b Hs Hw Eb m0 ir0 sp0 c0 W0 m1 ir1 sp1 c1 W1 n Hn Hfade env HN bs0 bs1 F0 F1 Hne) as (e & outs & E & H).
  exists e, outs. split; [exact E|]. intros o D P G Ho HD HP HG HI G0 G1.
  assert (Hin : forall m ir sp c, well_made F w m ir (ps_max_block s) sp c -> forall q, q < length ir -> nth q (cs_in sp) 0 < w).
  { intros m ir sp c W. pose proof W as (_ & _ & _ & _ & _ & _ & Hci & Hcin & _). intros q Hq. apply Hcin.
    assert (Hq2 : q < length (cs_in sp)) by exact (Nat.lt_le_trans _ _ _ Hq Hci).
    rewrite <- (firstn_skipn (length ir) (cs_in sp)) at 1. rewrite app_nth1; [apply nth_In|]; rewrite firstn_length; apply Nat.min_glb_lt; assumption. }
  assert (Bb : forall bs, fits w (ps_max_block s) bs -> blocks_of w bs) by (intros bs Hb; exact (@fits_blocks Rarith w _ bs Hb)).
  assert (B01 : blocks_of w (bs0 ++ bs1)) by (intros x Hx; apply in_app_iff in Hx as [Hx|Hx]; [exact (Bb _ F0 x Hx)|exact (Bb _ F1 x Hx)]).
  assert (HGD : (0 <= G * D)%R) by (apply Rmult_le_pos; auto). assert (HGP : (0 <= G * P)%R) by (apply Rmult_le_pos; auto).
  assert (Late : forall c, c < w -> gentle D (0%R :: channel c bs1) /\ below P (channel c bs1)).
  { intros c Hc. destruct (HI c Hc) as (A1 & A2 & A3). rewrite channel_app in A1, A2. split; [|intros x Hx; apply A2, in_app_iff; auto].
    intros t Ht. destruct t as [|t]; [cbn [nth]; rewrite Rminus_0_r; exact A3|]. cbn [nth].
    specialize (A1 (S (length (channel c bs0) + t))). cbn [length nth] in A1, Ht. rewrite app_length in A1. rewrite app_nth2 in A1 by lia.
    replace (S (length (channel c bs0) + t) - length (channel c bs0)) with (S t) in A1 by lia. rewrite app_nth2 in A1 by lia.
    replace (length (channel c bs0) + t - length (channel c bs0)) with t in A1 by lia. apply A1. cbn [sample Rarith] in *. lia. }
  apply (H o (G * D)%R (G * P)%R Ho HGD HGP).
  - apply (mixed_gentle w Hw sp0 ir0 (Hin _ _ _ _ W0) _ B01); auto. intros c Hc. apply (HI c Hc).
  - apply (mixed_gentle w Hw sp1 ir1 (Hin _ _ _ _ W1) _ (Bb _ F1)); auto. intros c Hc. apply (Late c Hc).
  - apply (mixed_below w Hw sp0 ir0 (Hin _ _ _ _ W0) _ B01); auto. intros c Hc. apply (HI c Hc).
  - apply (mixed_below w Hw sp1 ir1 (Hin _ _ _ _ W1) _ (Bb _ F1)); auto. intros c Hc. apply (Late c Hc).
Qed.
Print Assumptions C80_gentle_input.

(** The same for in/out fades. *)
Lemma cut_gentle D P (first : list R) k : (0 <= D)%R -> (0 <= P)%R -> gentle D first -> below P first ->
  exists z, z = last (firstn k first) z /\ gentle D (firstn k first) /\ gentle D (z :: skipn k first) /\ below P (z :: skipn k first).
Proof.
  intros HD HP Hg HB. set (l := firstn k first). set (r := skipn k first). assert (Efr : first = l ++ r) by (symmetry; apply firstn_skipn).
  unfold gentle in Hg. rewrite Efr, app_length in Hg.
  exists (last l (nth 0 r 0%R)). set (z := last l (nth 0 r 0%R)). split; [|split; [|split]].
  - unfold z. destruct l; [reflexivity|]; clear; revert r0; induction l as [|y l IH]; intros x; [reflexivity|apply (IH y)].
  - intros t Ht. specialize (Hg t). rewrite !app_nth1 in Hg by lia. apply Hg. lia.
  - intros t Ht. cbn [length] in Ht. destruct t as [|t].
    + cbn [nth]. unfold z. destruct (exists_last_or_nil l) as [En|(l' & x & En)].
      * rewrite En. cbn [last]. rewrite Rminus_diag_eq by reflexivity. rewrite Rabs_R0. exact HD.
      * rewrite En, last_last. specialize (Hg (length l')). rewrite En, <- app_assoc in Hg. rewrite !app_length in Hg. cbn [length app] in Hg.
        rewrite !app_nth2 in Hg by lia. replace (S (length l') - length l') with 1 in Hg by lia. rewrite Nat.sub_diag in Hg. cbn [nth] in Hg. apply Hg. lia.
    + cbn [nth]. specialize (Hg (length l + t)). rewrite !app_nth2 in Hg by lia.
      replace (S (length l + t) - length l) with (S t) in Hg by lia. replace (length l + t - length l) with t in Hg by lia. apply Hg. lia.
  - assert (Br : below P r) by (intros x Hx; apply HB; rewrite Efr; apply in_app_iff; auto).
    intros x [<-|Hx]; [|auto]. unfold z. destruct (exists_last_or_nil l) as [En|(l' & y & En)].
    + rewrite En. cbn [last]. apply below_nth; auto.
    + rewrite En, last_last. apply HB. rewrite Efr, En. apply in_app_iff. left. apply in_app_iff. right. now left.
Qed.

Theorem C80_gentle_input_in_out : forall F : rfft Rarith, rfft_ok F ->
  let I := convolver_if F in
  forall w s b, spec_ok w s -> 0 < w -> engine_bounds s = Ok b ->
  forall m0 ir0 sp0 c0, well_made F w m0 ir0 (ps_max_block s) sp0 c0 ->
  forall m1 ir1 sp1 c1, well_made F w m1 ir1 (ps_max_block s) sp1 c1 ->
  forall n, 0 < n -> fade_of b (Z.of_nat m1) (cs_fade sp1) = Ok (kInOut, Z.of_nat n) ->
  forall env, no_loads (eng_new I env) ->
  forall bs0 bs1 bs2, fits w (ps_max_block s) bs0 -> fits w (ps_max_block s) bs1 -> fits w (ps_max_block s) bs2 -> bs0 <> [] ->
  total (removelast bs1) < n -> (bs2 <> [] -> n <= total bs1) ->
  exists e outs,
    eng_run I (eng_new I env)
      (Prepare I s :: Others I [Deliver I {| h_id := 0; h_cv := c0 : cv I |}] :: map (Process I) bs0 ++
       Others I [Deliver I {| h_id := 1; h_cv := c1 : cv I |}] :: map (Process I) (bs1 ++ bs2)) = Ok (e, outs) /\
    forall o D P G, o < w -> (0 <= D)%R -> (0 <= P)%R -> (0 <= G)%R ->
    (forall c, c < w -> gentle D (0%R :: channel c (bs0 ++ bs1)) /\ below P (channel c (bs0 ++ bs1)) /\
                        gentle D (0%R :: channel c bs2) /\ below P (channel c bs2)) ->
    (loudness sp0 ir0 o <= G)%R -> (loudness sp1 ir1 o <= G)%R ->
    gentle (G * D + G * P / INR n) (channel o outs).
Proof.
  intros F HF I w s b Hs Hw Eb m0 ir0 sp0 c0 W0 m1 ir1 sp1 c1 W1 n Hn Hfade env HN bs0 bs1 bs2 F0 F1 F2 Hne HT1 HT2.
  destruct (C47_in_out Rarith Rarith_laws Rarith_inv F HF w s b Hs Hw Eb m0 ir0 sp0 c0 W0 m1 ir1 sp1 c1 W1 n Hfade env HN bs0 bs1 bs2 F0 F1 F2 Hne HT1 HT2)
    as (e & outs0 & outs1 & outs2 & E & C).
  exists e, (outs0 ++ outs1 ++ outs2). split; [exact E|]. intros o D P G Ho HD HP HG HI G0 G1.
  destruct (C o Ho) as (C0 & C1 & C2). rewrite !channel_app, C0, C1, C2.
  assert (Hin : forall m ir sp c, well_made F w m ir (ps_max_block s) sp c -> forall q, q < length ir -> nth q (cs_in sp) 0 < w).
  { intros m ir sp c W. pose proof W as (_ & _ & _ & _ & _ & _ & Hci & Hcin & _). intros q Hq. apply Hcin.
    assert (Hq2 : q < length (cs_in sp)) by exact (Nat.lt_le_trans _ _ _ Hq Hci).
    rewrite <- (firstn_skipn (length ir) (cs_in sp)) at 1. rewrite app_nth1; [apply nth_In|]; rewrite firstn_length; apply Nat.min_glb_lt; assumption. }
  assert (Bb : forall bs, fits w (ps_max_block s) bs -> blocks_of w bs) by (intros bs Hb; exact (@fits_blocks Rarith w _ bs Hb)).
  assert (B01 : blocks_of w (bs0 ++ bs1)) by (intros x Hx; apply in_app_iff in Hx as [Hx|Hx]; [exact (Bb _ F0 x Hx)|exact (Bb _ F1 x Hx)]).
  assert (HGD : (0 <= G * D)%R) by (apply Rmult_le_pos; auto). assert (HGP : (0 <= G * P)%R) by (apply Rmult_le_pos; auto).
  rewrite (mixed_before w (length ir0) ir0 (cs_in sp0) (cs_out sp0) bs0 bs1 o (Hin _ _ _ _ W0) (Bb _ F0) Ho).
  assert (Lf : length (@mixed Rarith (length ir0) (fun c => nth c ir0 []) (cs_in sp0) (cs_out sp0) (bs0 ++ bs1) o) = total bs0 + total bs1).
  { unfold mixed. rewrite tab_length, channel_app, app_length, !(channel_total w) by auto. reflexivity. }
  assert (Gf := mixed_gentle w Hw sp0 ir0 (Hin _ _ _ _ W0) _ B01 D G o Ho HD ltac:(intros c Hc; apply (HI c Hc)) G0).
  assert (Bf := mixed_below w Hw sp0 ir0 (Hin _ _ _ _ W0) _ B01 P G o Ho HP ltac:(intros c Hc; apply (HI c Hc)) G0).
  assert (Gs := mixed_gentle w Hw sp1 ir1 (Hin _ _ _ _ W1) _ (Bb _ F2) D G o Ho HD ltac:(intros c Hc; apply (HI c Hc)) G1).
  assert (Bs := mixed_below w Hw sp1 ir1 (Hin _ _ _ _ W1) _ (Bb _ F2) P G o Ho HP ltac:(intros c Hc; apply (HI c Hc)) G1).
  assert (Hs2 : @mixed Rarith (length ir1) (fun c => nth c ir1 []) (cs_in sp1) (cs_out sp1) bs2 o <> [] -> bs2 <> []).
  { intros H ->. apply H. reflexivity. }
  set (first := @mixed Rarith (length ir0) (fun c => nth c ir0 []) (cs_in sp0) (cs_out sp0) (bs0 ++ bs1) o) in *.
  set (second := @mixed Rarith (length ir1) (fun c => nth c ir1 []) (cs_in sp1) (cs_out sp1) bs2 o) in *.
  clearbody first second. change (list (sample Rarith)) with (list R) in first, second.
  change (@firstn (sample Rarith)) with (@firstn R). change (@skipn (sample Rarith)) with (@skipn R).
  destruct (cut_gentle (G * D) (G * P) first (total bs0) HGD HGP Gf Bf) as (z & Hz & Gl & Gr & Br).
  pose proof (lt_INR 0 n Hn) as HNn. cbn [INR] in HNn. assert (HPn : (0 <= G * P / INR n)%R) by (unfold Rdiv; apply Rmult_le_pos; [lra|left; apply Rinv_0_lt_compat; lra]).
  assert (Lr : second <> [] -> n <= length (skipn (total bs0) first)).
  { intros H. rewrite skipn_length. apply Hs2 in H. apply HT2 in H. change (@length R first = total bs0 + total bs1) in Lf. lia. }
  apply (gentle_join _ _ _ z); [|exact (gentle_scaled n Hn (G * D) (G * P) z (skipn (total bs0) first) second HGD HGP Lr Gr Gs Br Bs)|exact Hz].
  intros t Ht. eapply Rle_trans; [apply (Gl t Ht)|]. lra.
Qed.
Print Assumptions C80_gentle_input_in_out.

(** What the new convolver puts out is not gentle: it has not heard what came before, so a response that is silent at first cuts a
    hole.  The input is constantly 1 and both responses let that through; the output falls to 0 and jumps back to 1 after the fade
    (over one sample) has ended. *)
Theorem C80_cold_start_refuted : forall F : rfft Rarith, rfft_ok F ->
  let I := convolver_if F in
  let sp := {| cs_in := [0]; cs_out := [0]; cs_fade := kCrossfade; cs_internal := None |} in
  exists c0 c1, well_made F 1 1 ([[1]] : audio Rarith)%R 16 sp c0 /\ well_made F 1 3 ([[0; 0; 1]] : audio Rarith)%R 16 sp c1 /\
  exists e outs0 outs1,
    eng_run I (eng_new I [])
      (Prepare I small_spec :: Others I [Deliver I {| h_id := 0; h_cv := c0 : cv I |}] :: map (Process I) [[[1; 1]]; [[1; 1]]]%R ++
       Others I [Deliver I {| h_id := 1; h_cv := c1 : cv I |}] :: map (Process I) [[[1; 1]]; [[1; 1; 1]]]%R) = Ok (e, outs0 ++ outs1) /\
    channel 0 outs0 = [1; 1; 1; 1]%R /\ channel 0 outs1 = [0; 0; 1; 1; 1]%R.
Proof.
  intros F HF I sp.
  set (ir0 := [[1]]%R : audio Rarith). set (ir1 := [[0; 0; 1]]%R : audio Rarith).
  assert (Hir0 : block_of (length ir0) 1 ir0) by (split; [reflexivity|intros c [<-|[]]; reflexivity]).
  assert (Hir1 : block_of (length ir1) 3 ir1) by (split; [reflexivity|intros c [<-|[]]; reflexivity]).
  assert (HW : forall m ir, block_of (length ir) m ir -> length ir = 1 -> 0 < m -> m < 4 -> exists c, well_made F 1 m ir 16 sp c).
  { intros m ir Hir E1 Hm0 Hm. apply (well_made_exists Rarith_laws F HF); rewrite ?E1; try exact Hir; try lia; try (rewrite <- E1; exact Hir); unfold sp; cbn; lia. }
  destruct (HW 1 ir0 Hir0 eq_refl) as (c0 & W0); [lia|lia|]. destruct (HW 3 ir1 Hir1 eq_refl) as (c1 & W1); [lia|lia|].
  exists c0, c1. split; [exact W0|]. split; [exact W1|].
  assert (Hfit : forall bs : list (audio Rarith), (forall b, In b bs -> b = [[1; 1]]%R \/ b = [[1; 1; 1]]%R) -> fits 1 16 bs).
  { intros bs H b Hb. destruct (H b Hb) as [-> | ->]; [exists 2|exists 3]; (split; [lia|]; split; [reflexivity|intros c [<-|[]]; reflexivity]). }
  set (b := {| lower_fade_bound := 1; upper_fade_bound := 40; max_crossfade_ir_length := 100; in_out_fade_length := 4 |}%Z).
  assert (Eb : engine_bounds small_spec = Ok b) by exact small_bounds.
  assert (Efade : fade_of b (Z.of_nat 3) (cs_fade sp) = Ok (kCrossfade, Z.of_nat 1)) by (unfold sp, b; vm_compute; reflexivity).
  assert (Hne : [[[1; 1]]; [[1; 1]]]%R <> []) by discriminate.
  assert (HN : no_loads (eng_new I [])) by (intros x []).
  assert (F0 : fits 1 16 ([[[1; 1]]; [[1; 1]]]%R : list (audio Rarith))) by (apply Hfit; intros x [<-|[<-|[]]]; auto).
  assert (F1 : fits 1 16 ([[[1; 1]]; [[1; 1; 1]]]%R : list (audio Rarith))) by (apply Hfit; intros x [<-|[<-|[]]]; auto).
  destruct (C47_crossfade Rarith Rarith_laws Rarith_inv F HF 1 small_spec b small_spec_ok Nat.lt_0_1 Eb
              1 ir0 sp c0 W0 3 ir1 sp c1 W1 1 Efade [] HN _ _ F0 F1 Hne)
    as (e & outs0 & outs1 & E & _ & _ & C).
  exists e, outs0, outs1. split; [exact E|]. destruct (C 0 ltac:(lia)) as [-> ->]. clear.
  unfold sp, ir0, ir1, blend, mixed, fall, rise, convolve, channel, tab, total. cbn -[IZR].
  rewrite ?Rinv_1. split; repeat f_equal; ring.
Qed.
Print Assumptions C80_cold_start_refuted.

(** An example for [C80_gentle_input] and so for [C80_change]: any two responses of 40 samples, a cross-fade over 6 samples that the
    blocks cut in two, an input that moves by at most 1/4. *)
Example C80_example : forall F : rfft Rarith, rfft_ok F ->
  let I := convolver_if F in
  let sp := {| cs_in := [0]; cs_out := [0]; cs_fade := kCrossfade; cs_internal := None |} in
  forall ir0 ir1 : audio Rarith, block_of 1 40 ir0 -> block_of 1 40 ir1 ->
  exists c0 c1 e outs,
    eng_run I (eng_new I [])
      (Prepare I small_spec :: Others I [Deliver I {| h_id := 0; h_cv := c0 : cv I |}] :: map (Process I) [[[1/4; 1/2]]; [[1/4; 0]]]%R ++
       Others I [Deliver I {| h_id := 1; h_cv := c1 : cv I |}] :: map (Process I) [[[1/4; 1/2; 1/4]]; [[0; -1/4; -1/2; -1/4; 0]]]%R) = Ok (e, outs) /\
    forall G, (0 <= G)%R -> (loudness sp ir0 0 <= G)%R -> (loudness sp ir1 0 <= G)%R -> gentle (G * (1/4) + 2 * (G * (1/2) / INR 6)) (channel 0 outs).
Proof.
  intros F HF I sp ir0 ir1 H0 H1.
  assert (HW : forall ir, block_of 1 40 ir -> exists c, well_made F 1 40 ir 16 sp c).
  { intros ir Hir. pose proof Hir as (E1 & _). apply (well_made_exists Rarith_laws F HF); rewrite ?E1; try exact Hir; try lia; unfold sp; cbn; lia. }
  destruct (HW ir0 H0) as (c0 & W0). destruct (HW ir1 H1) as (c1 & W1).
  set (b := {| lower_fade_bound := 1; upper_fade_bound := 40; max_crossfade_ir_length := 100; in_out_fade_length := 4 |}%Z).
  assert (Eb : engine_bounds small_spec = Ok b) by exact small_bounds.
  assert (Efade : fade_of b (Z.of_nat 40) (cs_fade sp) = Ok (kCrossfade, Z.of_nat 6)) by (unfold sp, b; vm_compute; reflexivity).
  assert (HN : no_loads (eng_new I [])) by (intros x []).
  assert (F0 : fits 1 16 ([[[1/4; 1/2]]; [[1/4; 0]]]%R : list (audio Rarith))).
  { intros x [<-|[<-|[]]]; exists 2; (split; [lia|]; split; [reflexivity|intros c [<-|[]]; reflexivity]). }
  assert (F1 : fits 1 16 ([[[1/4; 1/2; 1/4]]; [[0; -1/4; -1/2; -1/4; 0]]]%R : list (audio Rarith))).
  { intros x [<-|[<-|[]]]; [exists 3|exists 5]; (split; [lia|]; split; [reflexivity|intros c [<-|[]]; reflexivity]). }
  destruct (C80_gentle_input F HF 1 small_spec b small_spec_ok Nat.lt_0_1 Eb 40 ir0 sp c0 W0 40 ir1 sp c1 W1 6 ltac:(lia) Efade [] HN _ _ F0 F1
              ltac:(discriminate)) as (e & outs & E & H).
  exists c0, c1, e, outs. split; [exact E|]. intros G HG L0 L1. apply (H 0 (1/4)%R (1/2)%R G); auto; try lia; try lra.
  intros c Hc. assert (c = 0) by lia. subst c. cbn -[IZR]. split; [|split].
  - intros t Ht. cbn [length] in Ht. do 12 (destruct t as [|t]; [cbn [nth]; unfold Rabs; destruct (Rcase_abs _); lra|]). exfalso; lia.
  - intros x Hx. cbn [In] in Hx. repeat (destruct Hx as [<-|Hx]; [unfold Rabs; destruct (Rcase_abs _); lra|]). destruct Hx.
  - unfold Rabs; destruct (Rcase_abs _); lra.
Qed.

(** An example for [C80_gentle_input_in_out]: the in/out fade has halves of 4 samples; the second begins with the third block after the
    delivery. *)
Example C80_in_out_example : forall F : rfft Rarith, rfft_ok F ->
  let I := convolver_if F in
  let sp := {| cs_in := [0]; cs_out := [0]; cs_fade := kInOut; cs_internal := None |} in
  forall ir0 ir1 : audio Rarith, block_of 1 40 ir0 -> block_of 1 40 ir1 ->
  exists c0 c1 e outs,
    eng_run I (eng_new I [])
      (Prepare I small_spec :: Others I [Deliver I {| h_id := 0; h_cv := c0 : cv I |}] :: map (Process I) [[[1/4; 1/2]]; [[1/4; 1/2]]]%R ++
       Others I [Deliver I {| h_id := 1; h_cv := c1 : cv I |}] :: map (Process I) ([[[1/4; 1/2; 1/4]]; [[0; -1/4]]] ++ [[[-1/4; -1/2; -1/4; 0]]])%R) = Ok (e, outs) /\
    forall G, (0 <= G)%R -> (loudness sp ir0 0 <= G)%R -> (loudness sp ir1 0 <= G)%R -> gentle (G * (1/4) + G * (1/2) / INR 4) (channel 0 outs).
Proof.
  intros F HF I sp ir0 ir1 H0 H1.
  assert (HW : forall ir, block_of 1 40 ir -> exists c, well_made F 1 40 ir 16 sp c).
  { intros ir Hir. pose proof Hir as (E1 & _). apply (well_made_exists Rarith_laws F HF); rewrite ?E1; try exact Hir; try lia; unfold sp; cbn; lia. }
  destruct (HW ir0 H0) as (c0 & W0). destruct (HW ir1 H1) as (c1 & W1).
  set (b := {| lower_fade_bound := 1; upper_fade_bound := 40; max_crossfade_ir_length := 100; in_out_fade_length := 4 |}%Z).
  assert (Eb : engine_bounds small_spec = Ok b) by exact small_bounds.
  assert (Efade : fade_of b (Z.of_nat 40) (cs_fade sp) = Ok (kInOut, Z.of_nat 4)) by (unfold sp, b; vm_compute; reflexivity).
  assert (HN : no_loads (eng_new I [])) by (intros x []).
  assert (F0 : fits 1 16 ([[[1/4; 1/2]]; [[1/4; 1/2]]]%R : list (audio Rarith))).
  { intros x [<-|[<-|[]]]; exists 2; (split; [lia|]; split; [reflexivity|intros c [<-|[]]; reflexivity]). }
  assert (F1 : fits 1 16 ([[[1/4; 1/2; 1/4]]; [[0; -1/4]]]%R : list (audio Rarith))).
  { intros x [<-|[<-|[]]]; [exists 3|exists 2]; (split; [lia|]; split; [reflexivity|intros c [<-|[]]; reflexivity]). }
  assert (F2 : fits 1 16 ([[[-1/4; -1/2; -1/4; 0]]]%R : list (audio Rarith))).
  { intros x [<-|[]]; exists 4; (split; [lia|]; split; [reflexivity|intros c [<-|[]]; reflexivity]). }
  destruct (C80_gentle_input_in_out F HF 1 small_spec b small_spec_ok Nat.lt_0_1 Eb 40 ir0 sp c0 W0 40 ir1 sp c1 W1 4 ltac:(lia) Efade [] HN _ _ _ F0 F1 F2
              ltac:(discriminate) ltac:(cbn; lia) ltac:(intros _; cbn; lia)) as (e & outs & E & H).
  exists c0, c1, e, outs. split; [exact E|]. intros G HG L0 L1. apply (H 0 (1/4)%R (1/2)%R G); auto; try lia; try lra.
  intros c Hc. assert (c = 0) by lia. subst c.
  assert (Gt : forall l : list R, (forall t, t < 12 -> S t < length l -> (Rabs (nth (S t) l 0 - nth t l 0) <= 1/4)%R) -> length l < 12 -> gentle (1/4) l).
  { intros l Hl HL t Ht. apply Hl; lia. }
  cbn -[IZR]. split; [|split; [|split]]; try (apply Gt; [|cbn; lia]; intros t H12 Ht; do 12 (destruct t as [|t]; [cbn [nth length] in *; try lia; unfold Rabs; destruct (Rcase_abs _); lra|]); lia);
  intros x Hx; cbn [In] in Hx; repeat (destruct Hx as [<-|Hx]; [unfold Rabs; destruct (Rcase_abs _); lra|]); destruct Hx.
Qed.

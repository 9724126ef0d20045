(** * C64, C65: the whole engine in single precision *)
From Coq Require Import ZArith Reals Lra Lia.
From Verif.Model Require Import Base Arith ArithReal ArithSingle Juce Float32 SmoothedValue Partitioning PartitionSchemes
     UniformPartitionedConvolver TimeDistributedNUPC Convolver ConvolutionEngine Loader.
From Verif.Spec Require Import Transform RealFFT Signal Routing Engine Loading Together Rounded Memory Precision PrecisionScheme PrecisionEngine.
From Verif.Proofs Require Import ComplexAlg Lists Blocks Streams FloatProof FadeProof FadeExact SmoothProof EngineProof EngineInv EngineFront
     EngineCalm EngineRoom EngineRun EngineFade EngineGains EngineMore EngineLevels RealFFTProof EngineOrigin SingleProof Norms SingleRoots SingleReal.
From Verif.Props Require Import PartitionProps ConvolverProps EngineProps WholeProps TogetherProps RoundedProps PrecisionProps PrecisionSchemeProps MemoryProps.
Local Open Scope nat_scope.

(** ** convolvers *)
Section Within.
  Context {pow : R * R -> nat -> R * R} (Rf : rfft (SingleWith pow)) (delta tau : R).
  Notation F := (SingleWith pow).

  (** C61 for every convolver that can be made *)
  Lemma made_within w m (ir : audio Rarith) M sp c : @well_made F Rf w m ir M sp c -> precise Rf delta tau m M sp ->
    convolves_routed_within w (length ir) (fun c => nth c ir []) (cs_in sp) (cs_out sp)
      (convolver_error delta tau m M ir sp) (@conv_process F Rf) (@conv_reset F) c.
  Proof.
    intros (H1 & H2 & H3 & H4 & H5 & H6 & H7 & H8 & H9 & H10 & E) (Hd & Ht & HP).
    destruct (C18_block_size (Z.of_nat M) (cs_internal sp) H6) as (b & e & Eb & Ee & He & Hs & _).
    assert (Eb2 : b = Z.of_nat (2 ^ Z.to_nat e)) by (rewrite Ee, Nat2Z.inj_pow, Z2Nat.id by lia; reflexivity).
    destruct (C14_covers b (Z.of_nat m) Hs ltac:(lia)) as (fr & ls & l0 & El & _). set (l := fr :: l0) in *.
    destruct (HP b l Eb El) as (HA & kt & Hpow & Hkt). rewrite Eb2, Nat2Z.id in HA, Hkt. rewrite Nat.log2_pow2 in HA by lia.
    rewrite Eb2 in El, Eb.
    destruct (C61_convolver_accuracy pow Rf delta tau (Z.to_nat e) kt w m ir M sp l Eb Hd HA Ht Hpow H1 H2 H3 H4 H5 El Hkt H7 H8 H9 H10)
      as (c' & Ec & H).
    assert (c' = c) by (cut (Ok c' = Ok c); [intros X; now injection X|]; exact (eq_trans (eq_sym Ec) E)). subst c'.
    intros sessions Hses. destruct (H sessions Hses) as (s' & outs & F1 & F2). exists s', outs. split; [exact F1|].
    unfold convolver_error. rewrite Eb, El, Nat2Z.id. exact F2.
  Qed.
End Within.

Lemma peak_app X (a b : list (audio Rarith)) : peak_below X (a ++ b) -> peak_below X a /\ peak_below X b.
Proof.
  intros H. split; intros c t.
  - destruct (Nat.lt_ge_cases t (length (channel c a))) as [Ht|Ht].
    + specialize (H c t). rewrite channel_app, app_nth1 in H by exact Ht. exact H.
    + rewrite nth_overflow by exact Ht. specialize (H c (length (channel c (a ++ b)))). rewrite nth_overflow in H by lia. exact H.
  - specialize (H c (length (channel c a) + t)). rewrite channel_app, app_nth2 in H by lia.
    replace (length (channel c a) + t - length (channel c a)) with t in H by lia. exact H.
Qed.

Lemma paired_length {A : arith} w c : forall (ins outs : list (audio A)), c < w -> length outs = length ins ->
  (forall i, i < length ins -> exists m, block_of w m (nth i ins []) /\ block_of w m (nth i outs [])) -> length (channel c outs) = total ins.
Proof.
  intros ins. induction ins as [|b ins IH]; intros [|o outs] Hc HL HS; try discriminate; [reflexivity|].
  destruct (HS 0 (Nat.lt_0_succ _)) as (m & [H1 H2] & [H3 H4]). cbn [nth] in *.
  change (o :: outs) with ([o] ++ outs). rewrite channel_app, app_length. unfold total. cbn [map list_sum fold_right].
  rewrite (IH outs Hc) by (try (intros i Hi; apply (HS (S i)); cbn; lia); now injection HL).
  f_equal. unfold channel. cbn [map concat]. rewrite app_nil_r. rewrite (H4 (nth c o [])) by (apply nth_In; lia).
  destruct b as [|x b]; [cbn in H1; lia|]. cbn [num_samples]. symmetry. apply H2. now left.
Qed.

(** ** C64 *)
(** C52 in [float]: after the settling time, and [m] samples later, what comes out is the convolution of everything that
    was ever passed to process with the response delivered last, within the error of its convolver. *)
Theorem C64_last_response_is_heard : forall pow (Rf : rfft (SingleWith pow)), rfft_sized Rf -> forall delta tau,
  let I := convolver_if Rf in
  forall w, 0 < w -> forall env l s e b outs0,
  legal I w (fun _ => True) None l -> last_spec None l = Some s -> eng_run I (eng_new I env) l = Ok (e, outs0) ->
  (forall h, delivers env l h -> exists m ir M sp, @well_made (SingleWith pow) Rf w m ir M sp (h_cv I h)) ->
  unhurried (eng_new I env) l -> no_loads e -> engine_bounds s = Ok b ->
  forall i, latest None (e_log I e) = Some i ->
  forall bs, fits w (ps_max_block s) bs -> settling_time b (ps_max_block s) <= total bs ->
  exists h0, delivers env l h0 /\ h_id I h0 = i /\
  forall m (ir : audio Rarith) M sp, @well_made (SingleWith pow) Rf w m ir M sp (h_cv I h0) -> precise Rf delta tau m M sp ->
  forall bs', fits w (ps_max_block s) bs' -> exists e' outs outs',
    eng_run I e (map (Process I) (bs ++ bs')) = Ok (e', outs ++ outs') /\ length outs = length bs /\ length outs' = length bs' /\
    forall X, peak_below X (blocks_in I l ++ bs ++ bs') ->
    forall o t, o < w -> m <= t < total bs' ->
      (Rabs (nth t (channel o outs') 0 -
             nth (total (blocks_in I l ++ bs) + t) (@mixed Rarith (length ir) (fun c => nth c ir []) (cs_in sp) (cs_out sp) (blocks_in I l ++ bs ++ bs') o) 0)
       <= convolver_error delta tau m M ir sp X o)%R.
Proof.
  intros pow Rf HR delta tau I w Hw env l s e b outs0 Hl Hs E0 HD Hu Hn Eb i Hi bs Hf Ht.
  set (F := SingleWith pow) in *.
  assert (HI := C62_convolvers_are_accepting F Rf HR w).
  assert (HD' : forall h, delivers env l h -> @used F Rf w (h_cv I h)).
  { intros h Hh. destruct (HD h Hh) as (m & ir & M & sp & W). eapply used_new; eauto. }
  assert (HR0 : reached I w (@used F Rf w) env l s e).
  { split; [|split; [|split; eauto]].
    - apply Forall_forall. intros a Ha h Hh. apply HD'. left. eauto.
    - clear - Hl HD'. assert (X : forall a, In (Others I a) l -> delivers_ok I (@used F Rf w) a).
      { intros a Ha h Hh. apply HD'. right. eauto. }
      clear HD'. revert Hl X. generalize (@None nat). induction l as [|o l IH]; intros p Hl X; [exact Logic.I|].
      destruct o; cbn [legal] in *; destruct Hl as [H1 H2]; (split; [|apply IH; auto; intros a Ha; apply X; now right]); auto. apply X. now left. }
  destruct (C52_convolver_in_charge F I w (@used F Rf w) Hw HI env l s e b HR0 Hu Hn Eb i Hi bs Hf Ht)
    as (e' & outs & E & h0 & hist & past & c & couts & D0 & Hid & Hend & Hin & Fs & HP).
  exists h0. split; auto. split; auto. intros m ir M sp W HPr bs' Hf'.
  destruct (HP bs' Hf') as (e'' & outs' & c' & pouts & E'' & Ff & Lp).
  exists e'', outs, outs'. split; [rewrite map_app, (EngineRun.run_app I), E; cbn [bind]; rewrite E''; reflexivity|].
  assert (RL : forall x e1 e2 os, eng_run I e1 (map (Process I) x) = Ok (e2, os) -> length os = length x).
  { clear. induction x as [|y x IH]; intros e1 e2 os X; cbn [map eng_run eng_step] in X; [now injection X as _ <-|].
    destruct (eng_process I e1 y) as [[e3 o]| |]; cbn [bind] in X; try discriminate.
    destruct (eng_run I e3 (map (Process I) x)) as [[e4 os']| |] eqn:X'; cbn [bind] in X; try discriminate. injection X as <- <-.
    cbn [app length]. f_equal. eapply IH; eauto. }
  split; [eapply RL; eauto|]. split; [eapply RL; eauto|]. intros X HX o t Ho Hmt.
  pose proof (legal_blocks I w _ l None Hl) as Bl. pose proof (fits_blocks w _ bs Hf) as Bbs. pose proof (fits_blocks w _ bs' Hf') as Bbs'.
  assert (Ball : blocks_of w (blocks_in I l ++ bs)) by (intros x Hx; apply in_app_iff in Hx as [Hx|Hx]; auto).
  destruct (ending_blocks w _ past Hend Ball) as (pre & Epre & Bpre & Bpast).
  assert (Bpb : blocks_of w (past ++ bs')) by (intros x Hx; apply in_app_iff in Hx as [Hx|Hx]; auto).
  destruct (made_within Rf delta tau w m ir M sp (h_cv I h0) W HPr (hist ++ [past ++ bs'])) as (s' & so & ES & HF).
  { intros x Hx. apply in_app_iff in Hx as [Hx|[<-|[]]]; auto. intros y Hy. apply Ball. eapply Hin; eauto. }
  change (feed_sessions (cv_process I) (cv_reset I) (h_cv I h0) (hist ++ [past ++ bs']) = Ok (s', so)) in ES.
  rewrite sessions_app in ES. rewrite Fs in ES. cbn [bind feed_sessions] in ES. rewrite Ff in ES. cbn [bind] in ES. injection ES as _ <-.
  apply Forall2_app_inv_l in HF as (p & q & HFp & HFq & Epq). inversion HFq as [|? y ? q1 Hy HFq1]; subst. inversion HFq1; subst.
  apply app_inj_tail in Epq as [_ <-].
  destruct (Hy X) as (HL & HS & HC).
  { rewrite app_assoc, Epre, <- app_assoc in HX. exact (proj2 (peak_app X pre (past ++ bs') HX)). }
  pose proof (@channel_length F w _ _ HL HS) as Bo.
  assert (Tp : length (channel o pouts) = total past).
  { apply (@paired_length F w o past pouts Ho Lp). intros k Hk. destruct (HS k) as (mm & P1 & P2); [rewrite app_length; lia|].
    exists mm. rewrite app_nth1 in P1 by lia. rewrite app_nth1 in P2 by (rewrite Lp; lia). split; assumption. }
  pose proof W as (_ & Hlen & (_ & Hbl) & _ & _ & _ & Hci & Hcin & _).
  change (length ir <= length (cs_in sp)) in Hci.
  assert (LB : length (channel o bs') = total bs') by (apply (channel_total w); auto).
  assert (LP : length (channel o past) = total past) by (apply (channel_total w); auto).
  assert (LPB : total past + t < length (@channel Rarith o (past ++ bs'))).
  { rewrite (@channel_app Rarith), app_length. refine (Nat.lt_le_trans _ (total past + total bs') _ _ _); [lia|].
    apply Nat.add_le_mono; apply Nat.eq_le_incl; symmetry; assumption. }
  specialize (HC o (total past + t) Ho LPB).
  assert (EO : nth (total past + t) (@channel Rarith o (pouts ++ outs')) 0%R = nth t (channel o outs') 0%R).
  { etransitivity; [apply (f_equal (fun z => nth (total past + t) z 0%R)); exact (@channel_app F o pouts outs')|].
    etransitivity; [apply (app_nth2 (channel o pouts)); rewrite Tp; lia|]. f_equal. rewrite Tp. lia. }
  rewrite EO in HC.
  eapply Rle_trans; [|exact HC]. right. f_equal. f_equal.
  rewrite app_assoc, Epre, <- app_assoc.
  assert (TT : total (pre ++ past) = total pre + total past) by (unfold total; rewrite map_app; apply list_sum_app).
  rewrite TT. 
  pose proof (mixed_recent Rarith_laws w (length ir) ir (cs_in sp) (cs_out sp) pre (past ++ bs') m o Bpre Bpb) as MR.
  specialize (MR ltac:(intros q Hq; apply Nat.eq_le_incl, (Hbl (nth q ir [])); now apply nth_In)).
  assert (Hc2 : forall q, q < length ir -> nth q (cs_in sp) 0 < w).
  { intros q Hq. apply Hcin. assert (Hq2 : q < length (cs_in sp)) by exact (Nat.lt_le_trans _ _ _ Hq Hci).
    rewrite <- (firstn_skipn (length ir) (cs_in sp)) at 1. rewrite app_nth1; [apply nth_In|]; rewrite firstn_length; apply Nat.min_glb_lt; assumption. }
  specialize (MR Hc2 Ho).
  apply (f_equal (fun x => nth (total past + t - m) x 0%R)) in MR. cbv beta in MR.
  pose proof (nth_skipn' (@mixed Rarith (length ir) (fun c => nth c ir []) (cs_in sp) (cs_out sp) (past ++ bs') o) m (total past + t - m) 0%R) as N1.
  pose proof (nth_skipn' (@mixed Rarith (length ir) (fun c => nth c ir []) (cs_in sp) (cs_out sp) (pre ++ past ++ bs') o) (total pre + m) (total past + t - m) 0%R) as N2.
  replace (m + (total past + t - m)) with (total past + t) in N1 by lia.
  replace (total pre + m + (total past + t - m)) with (total pre + total past + t) in N2 by lia.
  etransitivity; [symmetry; exact N2|]. etransitivity; [symmetry; exact MR|]. exact N1.
Qed.

(** C53 in [float]: from the LoadIR call to what is heard.  [p] is the argument of the prepare call the convolver was made
    for. *)
Theorem C64_from_LoadIR_to_sound : forall pow (Rf : rfft (SingleWith pow)), rfft_sized Rf -> forall delta tau,
  let F := SingleWith pow in
  let I := convolver_if Rf in
  forall workers ms st tr, load_run (convolver_build Rf) workers load_new ms = Ok (st, tr) -> quiescent st ->
  forall tr1 t id en (ir : audio Rarith) sp tr2, tr = tr1 ++ Began t id en (ir, sp) :: tr2 -> began en tr2 = [] -> last_prepared en tr1 <> None ->
  (forall id' e', In (Cancelled id' e') tr2 -> id' = id) ->
  forall w, 0 < w -> forall env l s eng b outs0,
  legal I w (fun _ => True) None l -> last_spec None l = Some s -> eng_run I (eng_new I env) l = Ok (eng, outs0) ->
  unhurried (eng_new I env) l -> no_loads eng -> engine_bounds s = Ok b ->
  @same_execution F I (audio F * conv_spec) en tr env l (e_log I eng) ->
  (forall t' id' r p, In (Began t' id' en r) tr -> In p (prepares l) -> loadable w r p) ->
  (forall m p, block_of (length ir) m ir -> In p (prepares l) -> precise Rf delta tau m (ps_max_block p) sp) ->
  ~ In (Rejected id) (e_log I eng) -> (forall log1 log2, e_log I eng = log1 ++ Delivered id :: log2 -> ~ In ClearCalled log2) ->
  forall bs bs', fits w (ps_max_block s) bs -> fits w (ps_max_block s) bs' -> settling_time b (ps_max_block s) <= total bs ->
  exists m p eng' outs outs', block_of (length ir) m ir /\ In p (prepares l) /\
    eng_run I eng (map (Process I) (bs ++ bs')) = Ok (eng', outs ++ outs') /\ length outs = length bs /\ length outs' = length bs' /\
    forall X, peak_below X (blocks_in I l ++ bs ++ bs') ->
    forall o t, o < w -> m <= t < total bs' ->
      (Rabs (nth t (channel o outs') 0 -
             nth (total (blocks_in I l ++ bs) + t) (@mixed Rarith (length ir) (fun c => nth c ir []) (cs_in sp) (cs_out sp) (blocks_in I l ++ bs ++ bs') o) 0)
       <= convolver_error delta tau m (ps_max_block p) ir sp X o)%R.
Proof.
  intros pow Rf HR delta tau F I workers ms st tr ER HQ tr1 t id en ir sp tr2 Etr Hlast Hprep Hc w Hw env l s eng b outs0 Hl Hs E0 Hu Hn Eb
         HX HLd HPr HRj HCl bs bs' Hf Hf' Ht.
  destruct (load_in_charge Rf workers ms st tr ER HQ tr1 t id en ir sp tr2 Etr Hlast Hprep Hc w Hw env l eng HX HLd HRj HCl) as (HLt & HWM & HMade).
  destruct (C64_last_response_is_heard pow Rf HR delta tau w Hw env l s eng b outs0 Hl Hs E0) with (i := id) (bs := bs) as (h0 & D0 & Hid & HH); auto.
  destruct (HMade h0 D0 Hid) as (m & p & Hm & Hp & W).
  destruct (HH m ir (ps_max_block p) sp W (HPr m p Hm Hp) bs' Hf') as (e' & outs & outs' & Q1 & Q2 & Q3 & Q4). exists m, p, e', outs, outs'. auto 8.
Qed.

(** ** C65 *)
Lemma within_feed {St} w n h inputs outputs E (process : St -> audio Rarith -> res (St * audio Rarith)) reset s bs :
  convolves_routed_within w n h inputs outputs E process reset s -> blocks_of w bs ->
  exists s' outs, feed process s bs = Ok (s', outs) /\ forall X, peak_below X bs -> routed_within w n h inputs outputs (E X) bs outs.
Proof.
  intros H Hb. destruct (H [bs]) as (s1 & os & E1 & HF); [intros x [<-|[]]; exact Hb|]. cbn [feed_sessions] in E1.
  destruct (feed process s bs) as [[s2 o]| |]; cbn [bind] in E1; try discriminate. injection E1 as _ <-.
  exists s2, o. split; [reflexivity|]. inversion HF; subst. assumption.
Qed.
Lemma min_share n t : 0 < n -> share n t = share n (Nat.min t n) /\ rising n t = rising n (Nat.min t n) /\ falling n t = falling n (Nat.min t n).
Proof.
  intros Hn. destruct (Nat.le_gt_cases t n) as [H|H]; [rewrite Nat.min_l by lia; auto|]. rewrite Nat.min_r by lia.
  rewrite !share_ge by lia. unfold rising, falling. rewrite !(proj2 (Nat.ltb_ge _ _)) by lia. auto.
Qed.
Lemma cross_error n t old new : 0 < n <= 2 ^ 22 ->
  (Rabs (single (single (old * falling n t) + single (new * rising n t)) - mix (share n t) old new) <= fade_error n t (Rabs old) (Rabs new))%R.
Proof.
  intros HN. destruct (min_share n t ltac:(lia)) as (-> & -> & ->). set (u := Nat.min t n). unfold fade_error. fold u.
  pose proof (mixed_err old new (falling n u) (rising n u) (1 - share n u) (share n u) _ (falling_err n u HN) (rising_err n u HN) (falling_bound n u HN) (rising_bound n u HN)) as X.
  rewrite two_u24 in X. unfold mix. eapply Rle_trans; [exact X|]. apply Rplus_le_compat.
  - right. f_equal. rewrite pow_23. unfold u24. lra.
  - apply pow_148.
Qed.
Lemma tiny_148 : (tiny <= / 2 ^ 148)%R.
Proof. pose proof pow_148. pose proof tiny_pos. lra. Qed.
Lemma fall_error n t old : 0 < n <= 2 ^ 22 ->
  (Rabs (single (old * falling n t) - mix (share n t) old 0) <= fade_error n t (Rabs old) 0)%R.
Proof.
  intros HN. destruct (min_share n t ltac:(lia)) as (-> & _ & ->). set (u := Nat.min t n). unfold fade_error. fold u.
  pose proof (scaled_err old _ _ _ (falling_err n u HN) (falling_bound n u HN)) as X. rewrite two_u24 in X. unfold mix.
  rewrite Rmult_0_l, !Rplus_0_r. eapply Rle_trans; [exact X|]. apply Rplus_le_compat; [|apply tiny_148].
  apply Rmult_le_compat_l; [apply Rabs_pos|]. rewrite pow_23. unfold u24. lra.
Qed.
Lemma rise_error n t new : 0 < n <= 2 ^ 22 ->
  (Rabs (single (new * rising n t) - mix (share n t) 0 new) <= fade_error n t 0 (Rabs new))%R.
Proof.
  intros HN. destruct (min_share n t ltac:(lia)) as (-> & -> & _). set (u := Nat.min t n). unfold fade_error. fold u.
  pose proof (scaled_err new _ _ _ (rising_err n u HN) (rising_bound n u HN)) as X. rewrite two_u24 in X. unfold mix.
  rewrite Rmult_0_l, !Rplus_0_l. eapply Rle_trans; [exact X|]. apply Rplus_le_compat; [|apply tiny_148].
  apply Rmult_le_compat_l; [apply Rabs_pos|]. rewrite pow_23. unfold u24. lra.
Qed.
Lemma after_error n t old new : 0 < n -> n <= t -> (Rabs (new - mix (share n t) old new) <= fade_error n t 0 (Rabs new))%R.
Proof.
  intros Hn Ht. rewrite share_ge by lia. unfold mix. replace (new - (old * (1 - 1) + new * 1))%R with 0%R by ring. rewrite Rabs_R0.
  unfold fade_error. pose proof (pos_INR (Nat.min t n)). pose proof (Rabs_pos new). assert (0 < / 2 ^ 148)%R by (apply Rinv_0_lt_compat, pow_lt; lra).
  assert (0 <= (0 + Rabs new) * ((INR (Nat.min t n) + 3) / 2 ^ 23))%R; [|lra]. apply Rmult_le_pos; [lra|]. rewrite pow_23. lra.
Qed.
Lemma fade_error_mono n t a b a' b' : (a <= a' -> b <= b' -> fade_error n t a b <= fade_error n t a' b')%R.
Proof.
  intros H1 H2. unfold fade_error. apply Rplus_le_compat_r. apply Rmult_le_compat_r; [|lra]. rewrite pow_23. pose proof (pos_INR (Nat.min t n)). lra.
Qed.
Lemma mix_error n t (old new old' new' y E0 E1 f : R) : 0 < n -> (Rabs (old - old') <= E0 -> Rabs (new - new') <= E1 ->
  Rabs (y - mix (share n t) old new) <= f -> Rabs (y - mix (share n t) old' new') <= mix (share n t) E0 E1 + f)%R.
Proof.
  intros Hn H0 H1 Hy. pose proof (share_range n t Hn) as [S1 S2]. set (x := share n t) in *. unfold mix in *.
  replace (y - (old' * (1 - x) + new' * x))%R with ((y - (old * (1 - x) + new * x)) + ((old - old') * (1 - x) + (new - new') * x))%R by ring.
  eapply Rle_trans; [apply Rabs_triang|]. rewrite Rplus_comm. apply Rplus_le_compat; [|exact Hy].
  eapply Rle_trans; [apply Rabs_triang|]. rewrite !Rabs_mult, (Rabs_pos_eq x), (Rabs_pos_eq (1 - x)) by lra.
  apply Rplus_le_compat; apply Rmult_le_compat_r; lra.
Qed.
Lemma Rabs_near (a b E : R) : (Rabs (a - b) <= E -> Rabs a <= Rabs b + E)%R.
Proof. intros H. pose proof (Rabs_triang (a - b) b) as T. replace (a - b + b)%R with a in T by ring. lra. Qed.

(** The engine is prepared, a response is loaded, some blocks are processed, a second response is loaded, more blocks are
    processed (C47), all in [float].  The first response is heard within the error of its convolver.  Then the cross-fade
    from the first, going on, to the second, which starts from silence: at every sample within the errors of the two
    convolvers in the proportion of the fade, and what the levels and the mixing add. *)
Theorem C65_crossfade : forall pow (Rf : rfft (SingleWith pow)), rfft_sized Rf -> forall delta tau,
  let I := convolver_if Rf in
  forall w s b, spec_ok w s -> 0 < w -> engine_bounds s = Ok b ->
  forall m0 (ir0 : audio Rarith) sp0 c0, @well_made (SingleWith pow) Rf w m0 ir0 (ps_max_block s) sp0 c0 -> precise Rf delta tau m0 (ps_max_block s) sp0 ->
  forall m1 (ir1 : audio Rarith) sp1 c1, @well_made (SingleWith pow) Rf w m1 ir1 (ps_max_block s) sp1 c1 -> precise Rf delta tau m1 (ps_max_block s) sp1 ->
  forall n, fade_of b (Z.of_nat m1) (cs_fade sp1) = Ok (kCrossfade, Z.of_nat n) -> n <= 2 ^ 22 ->
  forall env, no_loads (eng_new I env) ->
  forall bs0 bs1, fits w (ps_max_block s) bs0 -> fits w (ps_max_block s) bs1 -> bs0 <> [] ->
  exists e outs0 outs1,
    eng_run I (eng_new I env)
      (Prepare I s :: Others I [Deliver I {| h_id := 0; h_cv := c0 : cv I |}] :: map (Process I) bs0 ++
       Others I [Deliver I {| h_id := 1; h_cv := c1 : cv I |}] :: map (Process I) bs1) = Ok (e, outs0 ++ outs1) /\
    length outs0 = length bs0 /\ length outs1 = length bs1 /\
    let first (bs : list (audio Rarith)) o t := nth t (@mixed Rarith (length ir0) (fun c => nth c ir0 []) (cs_in sp0) (cs_out sp0) bs o) 0%R in
    let second (bs : list (audio Rarith)) o t := nth t (@mixed Rarith (length ir1) (fun c => nth c ir1 []) (cs_in sp1) (cs_out sp1) bs o) 0%R in
    forall X, peak_below X (bs0 ++ bs1) -> forall o, o < w ->
      let E0 := convolver_error delta tau m0 (ps_max_block s) ir0 sp0 X o in
      let E1 := convolver_error delta tau m1 (ps_max_block s) ir1 sp1 X o in
      (forall t, (t < total bs0)%nat -> Rabs (nth t (channel o outs0) 0 - first bs0 o t) <= E0)%R /\
      (forall t, (t < total bs1)%nat ->
        let old := first (bs0 ++ bs1) o (total bs0 + t)%nat in let new := second bs1 o t in
        Rabs (nth t (channel o outs1) 0 - mix (share n t) old new)
        <= mix (share n t) E0 E1 + fade_error n t (Rabs old + E0) (Rabs new + E1))%R.
Proof.
  intros pow Rf HR delta tau I w s b Hs Hw Eb m0 ir0 sp0 c0 W0 P0 m1 ir1 sp1 c1 W1 P1 n Hn H22 env HN bs0 bs1 Hf0 Hf1 Hne.
  set (F := SingleWith pow) in *.
  set (h0 := {| h_id := 0; h_cv := c0 : cv I |}). set (h1 := {| h_id := 1; h_cv := c1 : cv I |}).
  pose proof (C62_convolvers_are_accepting F Rf HR w) as HI.
  assert (He : Forall (delivers_ok I (@used F Rf w)) env).
  { apply Forall_forall. intros l Hl h Hh. exfalso. exact (HN l Hl h Hh). }
  destruct (first_second I w (@used F Rf w) Hw HI env s b h0 h1 bs0 Hs Eb He HN) as (e & outs0 & c0' & E & Hi & HN' & Hr & Ec & Fd & Ecv); auto;
    try (eapply used_new; eassumption).
  destruct (well_made_meta Rf w m1 ir1 _ sp1 c1 W1) as [M1 M2].
  assert (Hfade : fade_of b (cv_samples I (h_cv I h1)) (cv_fade I (h_cv I h1)) = Ok (kCrossfade, Z.of_nat n)).
  { cbn [cv_samples cv_fade convolver_if I h_cv h1]. now rewrite M1, M2. }
  pose proof (bounds_positive w s b Hs Eb) as HP.
  assert (Hn0 : (0 < Z.of_nat n)%Z).
  { apply (fade_len_of I w (@used F Rf w) (ps_max_block s) b e h1) in Hfade as X; auto. pose proof (fade_len_pos I w Hw b h1 HP) as Y. rewrite X in Y. exact Y. }
  destruct (cross_gains I w (@used F Rf w) Hw HI (ps_max_block s) b e (renew I h0 c0') h1 (Z.of_nat n) bs1 (proj1 (proj2 Hs)) Hi Hr HN' Ecv Ec Hfade Hn0 Hf1)
    as (e' & outs1 & a' & h' & olds & news & E' & Fa & Fh & C).
  rewrite Nat2Z.id in C. exists e', outs0, outs1. split.
  { replace (map (Process I) bs0 ++ Others I [Deliver I h1] :: map (Process I) bs1)
      with ((map (Process I) bs0 ++ [Others I [Deliver I h1]]) ++ map (Process I) bs1) by (rewrite <- app_assoc; reflexivity).
    change (Prepare I s :: Others I [Deliver I h0] :: (map (Process I) bs0 ++ [Others I [Deliver I h1]]) ++ map (Process I) bs1)
      with ((Prepare I s :: Others I [Deliver I h0] :: map (Process I) bs0 ++ [Others I [Deliver I h1]]) ++ map (Process I) bs1).
    rewrite run_app, E. cbn [bind]. rewrite E'. reflexivity. }
  assert (B0 : blocks_of w bs0) by (intros x Hx; destruct (Hf0 x Hx) as (k & _ & K); eauto).
  assert (B1 : blocks_of w bs1) by (intros x Hx; destruct (Hf1 x Hx) as (k & _ & K); eauto).
  assert (B01 : blocks_of w (bs0 ++ bs1)) by (intros x Hx; apply in_app_iff in Hx as [Hx|Hx]; auto).
  pose proof (feed_app _ bs0 _ bs1 _ _ _ _ Fd Fa) as Fda.
  destruct (within_feed w _ _ _ _ _ _ _ _ bs0 (made_within Rf delta tau w m0 ir0 _ sp0 c0 W0 P0) B0) as (x1 & x2 & EX & R0).
  pose proof (eq_trans (eq_sym EX) Fd) as X'. injection X' as -> ->.
  destruct (within_feed w _ _ _ _ _ _ _ _ (bs0 ++ bs1) (made_within Rf delta tau w m0 ir0 _ sp0 c0 W0 P0) B01) as (y1 & y2 & EY & R01).
  pose proof (eq_trans (eq_sym EY) Fda) as Y'. injection Y' as -> ->.
  destruct (within_feed w _ _ _ _ _ _ _ _ bs1 (made_within Rf delta tau w m1 ir1 _ sp1 c1 W1 P1) B1) as (z1 & z2 & EZ & R1).
  pose proof (eq_trans (eq_sym EZ) Fh) as Z'. injection Z' as -> ->.
  assert (LE : forall (x : list (audio F)) e1 e2 os, eng_run I e1 (map (Process I) x) = Ok (e2, os) -> length os = length x).
  { clear. induction x as [|y x IH]; intros e1 e2 os X; cbn [map eng_run eng_step] in X; [now injection X as _ <-|].
    destruct (eng_process I e1 y) as [[e3 o]| |]; cbn [bind] in X; try discriminate.
    destruct (eng_run I e3 (map (Process I) x)) as [[e4 os']| |] eqn:X'; cbn [bind] in X; try discriminate. injection X as <- <-.
    cbn [app length]. f_equal. eapply IH; eauto. }
  assert (LF : forall (x : list (audio F)) (q q' : cv I) os, feed (cv_process I) q x = Ok (q', os) -> length os = length x).
  { clear. induction x as [|y x IH]; intros q q' os X; cbn [feed] in X; [now injection X as _ <-|].
    destruct (cv_process I q y) as [[q3 o]| |]; cbn [bind] in X; try discriminate.
    destruct (feed (cv_process I) q3 x) as [[q4 os']| |] eqn:X'; cbn [bind] in X; try discriminate. injection X as <- <-.
    cbn [length]. f_equal. eapply IH; eauto. }
  pose proof (LF _ _ _ _ Fd) as L0. pose proof (LF _ _ _ _ Fa) as La. pose proof (LE _ _ _ _ E') as L1.
  split; [exact L0|]. split; [exact L1|]. intros first second X HX o Ho E0 E1.
  destruct (peak_app X bs0 bs1 HX) as [HX0 HX1].
  destruct (R0 X HX0) as (_ & S0 & C0). destruct (R01 X HX) as (_ & S01 & C01). destruct (R1 X HX1) as (_ & _ & C1).
  split.
  - intros t Ht. apply C0; auto. rewrite (@channel_total Rarith w o bs0 Ho B0). exact Ht.
  - intros t Ht old new. destruct (C o Ho) as (K1 & K2 & K3). specialize (K3 t Ht).
    assert (T0 : length (channel o outs0) = total bs0) by exact (@paired_length F w o bs0 outs0 Ho L0 S0).
    assert (Q0 : (Rabs (nth t (channel o olds) 0 - old) <= E0)%R).
    { assert (HT : total bs0 + t < length (@channel Rarith o (bs0 ++ bs1))).
      { rewrite (@channel_app Rarith), app_length, (@channel_total Rarith w o bs0 Ho B0), (@channel_total Rarith w o bs1 Ho B1). now apply Nat.add_lt_mono_l. }
      specialize (C01 o (total bs0 + t) Ho HT).
      assert (EO : nth (total bs0 + t) (@channel Rarith o (outs0 ++ olds)) 0%R = nth t (channel o olds) 0%R).
      { etransitivity; [apply (f_equal (fun z => nth (total bs0 + t) z 0%R)); exact (@channel_app F o outs0 olds)|].
        etransitivity; [apply (app_nth2 (channel o outs0)); rewrite T0; lia|]. f_equal. rewrite T0. lia. }
      rewrite EO in C01. exact C01. }
    assert (Q1 : (Rabs (nth t (channel o news) 0 - new) <= E1)%R).
    { apply C1; auto. rewrite (@channel_total Rarith w o bs1 Ho B1). exact Ht. }
    apply (mix_error n t (nth t (channel o olds) 0%R) (nth t (channel o news) 0%R) old new _ E0 E1); auto; [lia|].
    pose proof (Rabs_near _ _ _ Q0) as A0. pose proof (Rabs_near _ _ _ Q1) as A1.
    eapply Rle_trans; [|apply (fade_error_mono n t _ _ _ _ A0 A1)].
    assert (HN22 : 0 < n <= 2 ^ 22) by (split; [lia|exact H22]).
    destruct K3 as [K3|[K4 K3]].
    + assert (K4 : nth t (channel o outs1) 0%R = single (single (nth t (channel o olds) 0%R * falling n t) + single (nth t (channel o news) 0%R * rising n t))).
      { etransitivity; [exact K3|]. exact (f_equal2 (fun g1 g2 : R => single (single (nth t (channel o olds) 0%R * g1) + single (nth t (channel o news) 0%R * g2))) (out_level I n e Hr Hn0 t) (in_level I n e Hr Hn0 t)). }
      refine (eq_ind_r (fun z => Rabs (z - _) <= _)%R _ K4). now apply cross_error.
    + refine (eq_ind_r (fun z => Rabs (z - _) <= _)%R _ K3). eapply Rle_trans; [apply after_error; [lia|exact K4]|].
      apply fade_error_mono; [apply Rabs_pos|apply Rle_refl].
Qed.
(** The same with an in/out fade: [bs1] are the blocks until the first half ends. *)
Theorem C65_in_out : forall pow (Rf : rfft (SingleWith pow)), rfft_sized Rf -> forall delta tau,
  let I := convolver_if Rf in
  forall w s b, spec_ok w s -> 0 < w -> engine_bounds s = Ok b ->
  forall m0 (ir0 : audio Rarith) sp0 c0, @well_made (SingleWith pow) Rf w m0 ir0 (ps_max_block s) sp0 c0 -> precise Rf delta tau m0 (ps_max_block s) sp0 ->
  forall m1 (ir1 : audio Rarith) sp1 c1, @well_made (SingleWith pow) Rf w m1 ir1 (ps_max_block s) sp1 c1 -> precise Rf delta tau m1 (ps_max_block s) sp1 ->
  forall n, fade_of b (Z.of_nat m1) (cs_fade sp1) = Ok (kInOut, Z.of_nat n) -> n <= 2 ^ 22 ->
  forall env, no_loads (eng_new I env) ->
  forall bs0 bs1 bs2, fits w (ps_max_block s) bs0 -> fits w (ps_max_block s) bs1 -> fits w (ps_max_block s) bs2 -> bs0 <> [] ->
  total (removelast bs1) < n -> (bs2 <> [] -> n <= total bs1) ->
  exists e outs0 outs1 outs2,
    eng_run I (eng_new I env)
      (Prepare I s :: Others I [Deliver I {| h_id := 0; h_cv := c0 : cv I |}] :: map (Process I) bs0 ++
       Others I [Deliver I {| h_id := 1; h_cv := c1 : cv I |}] :: map (Process I) (bs1 ++ bs2)) = Ok (e, outs0 ++ outs1 ++ outs2) /\
    let first (bs : list (audio Rarith)) o t := nth t (@mixed Rarith (length ir0) (fun c => nth c ir0 []) (cs_in sp0) (cs_out sp0) bs o) 0%R in
    let second (bs : list (audio Rarith)) o t := nth t (@mixed Rarith (length ir1) (fun c => nth c ir1 []) (cs_in sp1) (cs_out sp1) bs o) 0%R in
    forall X, peak_below X (bs0 ++ bs1 ++ bs2) -> forall o, o < w ->
      let E0 := convolver_error delta tau m0 (ps_max_block s) ir0 sp0 X o in
      let E1 := convolver_error delta tau m1 (ps_max_block s) ir1 sp1 X o in
      (forall t, (t < total bs0)%nat -> Rabs (nth t (channel o outs0) 0 - first bs0 o t) <= E0)%R /\
      (forall t, (t < total bs1)%nat -> let old := first (bs0 ++ bs1) o (total bs0 + t)%nat in
        Rabs (nth t (channel o outs1) 0 - old * (1 - share n t)) <= (1 - share n t) * E0 + fade_error n t (Rabs old + E0) 0)%R /\
      (forall t, (t < total bs2)%nat -> let new := second bs2 o t in
        Rabs (nth t (channel o outs2) 0 - new * share n t) <= share n t * E1 + fade_error n t 0 (Rabs new + E1))%R.
Proof.
  intros pow Rf HR delta tau I w s b Hs Hw Eb m0 ir0 sp0 c0 W0 P0 m1 ir1 sp1 c1 W1 P1 n Hn H22 env HN bs0 bs1 bs2 Hf0 Hf1 Hf2 Hne HT1 HT2.
  set (F := SingleWith pow) in *.
  set (h0 := {| h_id := 0; h_cv := c0 : cv I |}). set (h1 := {| h_id := 1; h_cv := c1 : cv I |}).
  pose proof (C62_convolvers_are_accepting F Rf HR w) as HI.
  assert (He : Forall (delivers_ok I (@used F Rf w)) env).
  { apply Forall_forall. intros l Hl h Hh. exfalso. exact (HN l Hl h Hh). }
  destruct (first_second I w (@used F Rf w) Hw HI env s b h0 h1 bs0 Hs Eb He HN) as (e & outs0 & c0' & E & Hi & HN' & Hr & Ec & Fd & Ecv); auto;
    try (eapply used_new; eassumption).
  destruct (well_made_meta Rf w m1 ir1 _ sp1 c1 W1) as [M1 M2].
  assert (Hfade : fade_of b (cv_samples I (h_cv I h1)) (cv_fade I (h_cv I h1)) = Ok (kInOut, Z.of_nat n)).
  { cbn [cv_samples cv_fade convolver_if I h_cv h1]. now rewrite M1, M2. }
  pose proof (bounds_positive w s b Hs Eb) as HP.
  assert (Hn0 : (0 < Z.of_nat n)%Z).
  { apply (fade_len_of I w (@used F Rf w) (ps_max_block s) b e h1) in Hfade as X; auto. pose proof (fade_len_pos I w Hw b h1 HP) as Y. rewrite X in Y. exact Y. }
  assert (HT1' : total (removelast bs1) < Z.to_nat (Z.of_nat n)) by (rewrite Nat2Z.id; exact HT1).
  assert (HT2' : bs2 <> [] -> Z.to_nat (Z.of_nat n) <= total bs1) by (rewrite Nat2Z.id; exact HT2).
  destruct (inout_gains I w (@used F Rf w) Hw HI (ps_max_block s) b e (renew I h0 c0') h1 (Z.of_nat n) bs1 bs2 (proj1 (proj2 Hs)) Hi Hr HN' Ecv Ec Hfade Hn0 Hf1 Hf2 HT1' HT2')
    as (e' & outs1 & outs2 & a' & h' & olds & news & E' & Fa & Fh & C).
  rewrite Nat2Z.id in C. exists e', outs0, outs1, outs2. split.
  { replace (map (Process I) bs0 ++ Others I [Deliver I h1] :: map (Process I) (bs1 ++ bs2))
      with ((map (Process I) bs0 ++ [Others I [Deliver I h1]]) ++ map (Process I) (bs1 ++ bs2)) by (rewrite <- app_assoc; reflexivity).
    change (Prepare I s :: Others I [Deliver I h0] :: (map (Process I) bs0 ++ [Others I [Deliver I h1]]) ++ map (Process I) (bs1 ++ bs2))
      with ((Prepare I s :: Others I [Deliver I h0] :: map (Process I) bs0 ++ [Others I [Deliver I h1]]) ++ map (Process I) (bs1 ++ bs2)).
    rewrite run_app, E. cbn [bind]. rewrite E'. reflexivity. }
  assert (B0 : blocks_of w bs0) by (intros x Hx; destruct (Hf0 x Hx) as (k & _ & K); eauto).
  assert (B1 : blocks_of w bs1) by (intros x Hx; destruct (Hf1 x Hx) as (k & _ & K); eauto).
  assert (B2 : blocks_of w bs2) by (intros x Hx; destruct (Hf2 x Hx) as (k & _ & K); eauto).
  assert (B01 : blocks_of w (bs0 ++ bs1)) by (intros x Hx; apply in_app_iff in Hx as [Hx|Hx]; auto).
  pose proof (feed_app _ bs0 _ bs1 _ _ _ _ Fd Fa) as Fda.
  destruct (within_feed w _ _ _ _ _ _ _ _ bs0 (made_within Rf delta tau w m0 ir0 _ sp0 c0 W0 P0) B0) as (x1 & x2 & EX & R0).
  pose proof (eq_trans (eq_sym EX) Fd) as X'. injection X' as -> ->.
  destruct (within_feed w _ _ _ _ _ _ _ _ (bs0 ++ bs1) (made_within Rf delta tau w m0 ir0 _ sp0 c0 W0 P0) B01) as (y1 & y2 & EY & R01).
  pose proof (eq_trans (eq_sym EY) Fda) as Y'. injection Y' as -> ->.
  destruct (within_feed w _ _ _ _ _ _ _ _ bs2 (made_within Rf delta tau w m1 ir1 _ sp1 c1 W1 P1) B2) as (z1 & z2 & EZ & R1).
  pose proof (eq_trans (eq_sym EZ) Fh) as Z'. injection Z' as -> ->.
  assert (LF : forall (x : list (audio F)) (q q' : cv I) os, feed (cv_process I) q x = Ok (q', os) -> length os = length x).
  { clear. induction x as [|y x IH]; intros q q' os X; cbn [feed] in X; [now injection X as _ <-|].
    destruct (cv_process I q y) as [[q3 o]| |]; cbn [bind] in X; try discriminate.
    destruct (feed (cv_process I) q3 x) as [[q4 os']| |] eqn:X'; cbn [bind] in X; try discriminate. injection X as <- <-.
    cbn [length]. f_equal. eapply IH; eauto. }
  pose proof (LF _ _ _ _ Fd) as L0. intros first second X HX o Ho E0 E1.
  destruct (peak_app X bs0 (bs1 ++ bs2) HX) as [HX0 HX12]. destruct (peak_app X bs1 bs2 HX12) as [_ HX2].
  assert (HX01 : peak_below X (bs0 ++ bs1)) by (rewrite app_assoc in HX; exact (proj1 (peak_app X (bs0 ++ bs1) bs2 HX))).
  destruct (R0 X HX0) as (_ & S0 & C0). destruct (R01 X HX01) as (_ & S01 & C01). destruct (R1 X HX2) as (_ & _ & C1).
  assert (HN22 : 0 < n <= 2 ^ 22) by (split; [lia|exact H22]).
  destruct (C o Ho) as (_ & _ & _ & _ & K1 & K2).
  assert (T0 : length (channel o outs0) = total bs0) by exact (@paired_length F w o bs0 outs0 Ho L0 S0).
  split; [|split].
  - intros t Ht. apply C0; auto. rewrite (@channel_total Rarith w o bs0 Ho B0). exact Ht.
  - intros t Ht old. specialize (K1 t Ht).
    assert (Q0 : (Rabs (nth t (channel o olds) 0 - old) <= E0)%R).
    { assert (HT : total bs0 + t < length (@channel Rarith o (bs0 ++ bs1))).
      { rewrite (@channel_app Rarith), app_length, (@channel_total Rarith w o bs0 Ho B0), (@channel_total Rarith w o bs1 Ho B1). now apply Nat.add_lt_mono_l. }
      specialize (C01 o (total bs0 + t) Ho HT).
      assert (EO : nth (total bs0 + t) (@channel Rarith o (outs0 ++ olds)) 0%R = nth t (channel o olds) 0%R).
      { etransitivity; [apply (f_equal (fun z => nth (total bs0 + t) z 0%R)); exact (@channel_app F o outs0 olds)|].
        etransitivity; [apply (app_nth2 (channel o outs0)); rewrite T0; lia|]. f_equal. rewrite T0. lia. }
      rewrite EO in C01. exact C01. }
    assert (K4 : nth t (channel o outs1) 0%R = single (nth t (channel o olds) 0%R * falling n t)).
    { etransitivity; [exact K1|]. exact (f_equal (fun g : R => single (nth t (channel o olds) 0%R * g)) (out_level I n e Hr Hn0 t)). }
    refine (eq_ind_r (fun z => Rabs (z - _) <= _)%R _ K4). pose proof (Rabs_near _ _ _ Q0) as A0.
    replace (old * (1 - share n t))%R with (mix (share n t) old 0) by (unfold mix; ring).
    replace ((1 - share n t) * E0)%R with (mix (share n t) E0 0) by (unfold mix; ring).
    apply (mix_error n t (nth t (channel o olds) 0%R) 0 old 0 _ E0 0); auto; [lia|rewrite Rminus_0_r, Rabs_R0; lra|].
    eapply Rle_trans; [now apply fall_error|]. apply fade_error_mono; [exact A0|lra].
  - intros t Ht new. specialize (K2 t Ht).
    assert (Q1 : (Rabs (nth t (channel o news) 0 - new) <= E1)%R).
    { apply C1; auto. rewrite (@channel_total Rarith w o bs2 Ho B2). exact Ht. }
    pose proof (Rabs_near _ _ _ Q1) as A1.
    replace (new * share n t)%R with (mix (share n t) 0 new) by (unfold mix; ring).
    replace (share n t * E1)%R with (mix (share n t) 0 E1) by (unfold mix; ring).
    apply (mix_error n t 0 (nth t (channel o news) 0%R) 0 new _ 0 E1); auto; [lia|rewrite Rminus_0_r, Rabs_R0; lra|].
    eapply Rle_trans; [|apply (fade_error_mono n t 0 _ 0 _ (Rle_refl 0) A1)].
    destruct K2 as [K2|[K4 K2]].
    + assert (K4 : nth t (channel o outs2) 0%R = single (nth t (channel o news) 0%R * rising n t)).
      { etransitivity; [exact K2|]. exact (f_equal (fun g : R => single (nth t (channel o news) 0%R * g)) (in_level I n e Hr Hn0 t)). }
      refine (eq_ind_r (fun z => Rabs (z - _) <= _)%R _ K4). now apply rise_error.
    + refine (eq_ind_r (fun z => Rabs (z - _) <= _)%R _ K2). apply after_error; [lia|exact K4].
Qed.

(** ** Examples *)
(** [float], powers of the rounded roots computed exactly and then rounded, and the radix-2 transform as real transform:
    accurate enough for stereo responses of 3000 or 5000 samples at blocks of 64 samples. *)
Definition F32 : arith := SingleWith exact_power.
Definition delta64 : R := transform_error (3 * INR (2 ^ 7) * u24)%R 7.
Definition tau64 : R := (3 * INR (2 ^ 9) * u24)%R.
Definition stereo (fade : fade_strategy) : conv_spec := {| cs_in := [0; 1]; cs_out := [1; 0]; cs_fade := fade; cs_internal := None |}.
Definition spec44 : process_spec := {| ps_rate_num := 44100; ps_rate_den := 1; ps_max_block := 64; ps_channels := 2 |}.
Definition bounds44 : bounds := {| lower_fade_bound := 4410; upper_fade_bound := 176400; max_crossfade_ir_length := 441000; in_out_fade_length := 17640 |}.
Lemma precise64 m fade : m = 3000 \/ m = 5000 -> @precise exact_power (@fast_rfft F32) delta64 tau64 m 64 (stereo fade).
Proof.
  intros Hm.
  assert (Ht7 : (3 * INR (2 ^ 7) * u24 = 384 * u24)%R) by (replace (INR (2 ^ 7)) with 128%R by (rewrite INR_IZR_INZ; reflexivity); ring).
  assert (Ht9 : (tau64 = 1536 * u24)%R) by (unfold tau64; replace (INR (2 ^ 9)) with 512%R by (rewrite INR_IZR_INZ; reflexivity); ring).
  split; [|split].
  - unfold delta64, transform_error. rewrite Ht7.
    assert (1 <= (1 + (384 * u24 + 12 * u24)) ^ 7)%R by (apply pow_R1_Rle; unfold u24; lra). lra.
  - rewrite Ht9. unfold u24. lra.
  - intros b l Eb El. assert (b = 64%Z) by (cbn in Eb; now injection Eb as <-). subst b. split.
    + change (S (Nat.log2 (Z.to_nat 64))) with 7. apply fast_rfft_accurate; [apply (exact_power_accurate 7); lia| |lia]. rewrite Ht7. unfold u24. lra.
    + exists 9. split; [apply (exact_power_accurate 9); lia|].
      assert (H : l = [{| pl_size := 1; pl_num := 9 |}; {| pl_size := 4; pl_num := 10 |}] \/ l = [{| pl_size := 1; pl_num := 9 |}; {| pl_size := 4; pl_num := 18 |}]).
      { destruct Hm as [-> | ->]; [left|right].
        - assert (X : GetPartitionScheme kGarciaResults 64 (Z.of_nat 3000) = Ok [{| pl_size := 1; pl_num := 9 |}; {| pl_size := 4; pl_num := 10 |}]) by (vm_compute; reflexivity).
          rewrite X in El. now injection El as <-.
        - assert (X : GetPartitionScheme kGarciaResults 64 (Z.of_nat 5000) = Ok [{| pl_size := 1; pl_num := 9 |}; {| pl_size := 4; pl_num := 18 |}]) by (vm_compute; reflexivity).
          rewrite X in El. now injection El as <-. }
      intros q Hq. destruct H as [-> | ->]; destruct Hq as [<-|[]]; cbn; lia.
Qed.
Lemma made64 m (ir : audio Rarith) fade : m = 3000 \/ m = 5000 -> block_of 2 m ir -> exists c, @well_made F32 (@fast_rfft F32) 2 m ir 64 (stereo fade) c.
Proof.
  intros Hm Hir. assert (E2 : length ir = 2) by apply Hir.
  apply (C62_construction F32 fast_rfft (fast_rfft_sized F32)).
  - lia.
  - change (0 < length ir). rewrite E2. lia.
  - change (block_of (length ir) m ir). now rewrite E2.
  - lia.
  - lia.
  - cbn. lia.
  - change (length ir <= 2). rewrite E2. lia.
  - change (forall i, In i (firstn (length ir) [0; 1]) -> i < 2). rewrite E2. cbn. intros i [<-|[<-|[]]]; lia.
  - change (length ir <= 2). rewrite E2. lia.
  - change (forall i, In i (firstn (length ir) [1; 0]) -> i < 2). rewrite E2. cbn. intros i [<-|[<-|[]]]; lia.
Qed.

(** One load of any stereo response of 5000 samples, from the LoadIR call to the sound. *)
Example C64_example : let I := convolver_if (@fast_rfft F32) in
  forall ir : audio Rarith, block_of 2 5000 ir ->
  exists st c eng,
    load_run (convolver_build (@fast_rfft F32)) 1 load_new (one_load (ir, stereo kCrossfade) spec44 false) = Ok (st, one_trace (ir, stereo kCrossfade) spec44 c false) /\
    eng_run I (eng_new I []) [Prepare I spec44; Others I [Deliver I {| h_id := 0; h_cv := c : cv I |}]] = Ok (eng, []) /\
    forall bs bs' : list (audio Rarith), fits 2 64 bs -> fits 2 64 bs' -> settling_time bounds44 64 <= total bs ->
    exists eng' outs outs',
      eng_run I eng (map (Process I) (bs ++ bs')) = Ok (eng', outs ++ outs') /\ length outs = length bs /\ length outs' = length bs' /\
      forall X, peak_below X (bs ++ bs') -> forall o t, o < 2 -> 5000 <= t < total bs' ->
      (Rabs (nth t (channel o outs') 0 -
             nth (total bs + t) (@mixed Rarith 2 (fun c => nth c ir []) [0; 1]%nat [1; 0]%nat (bs ++ bs') o) 0)
       <= convolver_error delta64 tau64 5000 64 ir (stereo kCrossfade) X o)%R.
Proof.
  intros I ir Hir. assert (E2 : length ir = 2) by apply Hir.
  destruct (made64 5000 ir kCrossfade) as (c & Hc); auto.
  destruct (@one_load_meets F32 fast_rfft ir 5000 false c E2 Hc) as (Eb & st & eng & ER & HQ & Et & T1 & T2 & Hl & Hs & E0 & Hu & Hnl & HS & HLd & HRj & HCl & EB & EP).
  exists st, c, eng. split; [exact ER|]. split; [exact E0|]. intros bs bs' Hf Hf' Ht.
  destruct (C64_from_LoadIR_to_sound exact_power (@fast_rfft F32) (fast_rfft_sized F32) delta64 tau64 1 _ st _ ER HQ [Prepared 0 spec44; ResetDone 0 false] 3 0 0 ir (stereo kCrossfade) _ Et T1
     ltac:(intros X; discriminate X) T2 2 ltac:(lia) [] _ spec44 eng bounds44 [] Hl Hs E0 Hu Hnl Eb HS HLd) with (bs := bs) (bs' := bs')
    as (m & p & eng' & outs & outs' & Hm & Hp & Q1 & Q2 & Q3 & Q4); auto.
  { intros m p Hm [<-|[]]. assert (m = 5000) as ->; [|apply precise64; now right].
    rewrite <- (proj2 Hm (nth 0 ir [])), <- (proj2 Hir (nth 0 ir [])); auto; apply nth_In; lia. }
  assert (m = 5000) as ->.
  { rewrite <- (proj2 Hm (nth 0 ir [])), <- (proj2 Hir (nth 0 ir [])); auto; apply nth_In; lia. }
  destruct Hp as [<-|[]].
  exists eng', outs, outs'. split; [exact Q1|]. split; [exact Q2|]. split; [exact Q3|]. intros X HX o t Ho Htt. 
  specialize (Q4 X HX o t Ho Htt). rewrite E2 in Q4. exact Q4.
Qed.
(** A response of 5000 samples, then one of 3000 samples: cross-fades of 4410, in/out fades of 17640 samples. *)
Example C65_example : forall (ir0 ir1 : audio Rarith) fade, block_of 2 5000 ir0 -> block_of 2 3000 ir1 ->
  spec_ok 2 spec44 /\ engine_bounds spec44 = Ok bounds44 /\
  exists c0 c1, @well_made F32 (@fast_rfft F32) 2 5000 ir0 64 (stereo fade) c0 /\ @precise exact_power (@fast_rfft F32) delta64 tau64 5000 64 (stereo fade) /\
    @well_made F32 (@fast_rfft F32) 2 3000 ir1 64 (stereo fade) c1 /\ @precise exact_power (@fast_rfft F32) delta64 tau64 3000 64 (stereo fade) /\
    exists n, fade_of bounds44 3000 fade = Ok (fade, Z.of_nat n) /\ 4000 < n /\ n <= 2 ^ 22.
Proof.
  intros ir0 ir1 fade H0 H1. split; [unfold spec_ok, rate_ok; cbn; lia|]. split; [vm_compute; reflexivity|].
  destruct (made64 5000 ir0 fade) as (c0 & W0); auto. destruct (made64 3000 ir1 fade) as (c1 & W1); auto.
  exists c0, c1. split; [exact W0|]. split; [apply precise64; auto|]. split; [exact W1|]. split; [apply precise64; auto|].
  exists (Z.to_nat (match fade with kCrossfade => 4410 | kInOut => 17640 end)).
  rewrite Z2Nat.id by (destruct fade; lia). split; [destruct fade; vm_compute; reflexivity|].
  split; [destruct fade; lia|]. apply Nat2Z.inj_le. rewrite Nat2Z.inj_pow. destruct fade; cbn; lia.
Qed.
Print Assumptions C64_last_response_is_heard.
Print Assumptions C64_from_LoadIR_to_sound.
Print Assumptions C65_crossfade.
Print Assumptions C65_in_out.

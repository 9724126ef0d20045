(** * C57, C58: accuracy of the convolvers in single precision *)
From Coq Require Import Reals Lra Lia.
From Verif.Model Require Import Base Arith ArithReal ArithSingle Juce Float32 ComplexBuffer FFT Partitioning
     TimeDistributedUPC TimeDistributedUPCMulti.
From Verif.Spec Require Import Transform Compose Buffers Signal Precision.
From Verif.Proofs Require Import Lists ComplexAlg Butterfly FFTProof Decomp Blocks Streams StreamsQ UPCProof TDUPCProof TDUPCStream MultiProof
     Norms SingleProof SingleFFT SingleTD SingleStreams SingleRoots.
From Verif.Props Require Import UPCProps FFTProps.
Open Scope R_scope.

Lemma parts_unique P m K : (0 < P)%nat -> (0 < K)%nat -> (m <= K * P)%nat -> ((K - 1) * P < m)%nat -> parts P m = K.
Proof.
  intros HP HK H1 H2. unfold parts. symmetry. apply (Nat.div_unique _ _ _ (m + P - 1 - K * P)); nia.
Qed.

(** C57.  The time-distributed convolver in [float]: [n] channels, partitions of [P = 2^s] blocks of [2^b] samples.
    [pow] is whatever [std::pow] computes, as long as the twiddle factors it gives are right within [tau]. *)
Theorem C57_time_distributed_accuracy : forall pow tau n b s m (seg : audio Rarith),
  let F := SingleWith pow in let P := (2 ^ s * 2 ^ b)%nat in
  (0 < s)%nat -> 0 <= tau <= / 4 -> pow_accurate pow (@cis F) (@cis_neg F) (S (s + b)) tau ->
  (0 < length seg)%nat -> block_of (length seg) m seg -> (0 < m)%nat -> (Z.of_nat m <= 2 ^ 24)%Z ->
  exists mu, @multi_make F n (2 ^ b) (2 ^ s) seg = Ok mu /\
    convolves_within n (2 * P) (fun len => len = (2 ^ b)%nat) (response seg)
      (fun X c => td_error tau (S (s + b)) (parts P m) P (response seg c) X)
      (@multi_process F) (@multi_reset F) mu.
Proof.
  intros pow tau n b s m seg F P Hs Htau Hpow Hl Hsh Hm H24.
  assert (EP : P = (2 ^ (s + b))%nat) by (unfold P; now rewrite Nat.pow_add_r).
  destruct (multi_make_ok (single_zero pow) b s Hs n seg m) as (K & mu & HK & (HKm & HKl) & E & Hst & _); auto.
  exists mu. split; [exact E|]. rewrite EP.
  assert (EK : parts (2 ^ (s + b)) m = K) by (apply parts_unique; auto; apply pow2_pos). rewrite EK.
  apply convolves_within_gen with (N := (K * 2 ^ (s + b))%nat)
    (Inv := fun x T mu' => exists p0, @multi_stream F b s n K (@ir_fun F seg) (moff mu) (mnd mu) p0 x T mu').
  - intros c Hc. unfold response. destruct Hsh as [_ Hsh]. rewrite Hsh; auto.
    apply nth_In, Nat.mod_upper_bound. lia.
  - intros x T mu' len -> (p0 & H').
    destruct (@multi_process_any F b s Hs n K _ _ _ p0 x T mu' HK H') as (mu2 & E2 & H2).
    eexists mu2, _. split; [exact E2|]. split; [|exists p0; exact H2].
    intros c i Hc Hi X HX. unfold td_error, blowup.
    set (h := @ir_fun F seg c). set (HL := part_level (2 ^ (s + b)) (response seg c)).
    destruct (tdy_near pow (S (s + b)) tau Hpow Htau b s K h (x c) X HL p0 (T + i) HK (le_n _) (HX c)) as [_ G].
    { intros r Hr. apply Rle_refl. }
    rewrite (@tdy_exact Rarith b s 0 0 K h) in G; auto using Rarith_laws; try lia.
    2: { cbn [Nat.add]. apply Nat.pow_le_mono_r; lia. }
    eapply Rle_trans; [exact G|]. right. unfold efac, level, gfac. ring.
  - intros x T mu' x' (p0 & H'). eexists. eapply (@multi_reset_ok F (single_zero pow)); eauto.
  - intros x. exists 0%nat. apply Hst.
Qed.
Print Assumptions C57_time_distributed_accuracy.

(** The hypotheses can be met: partitions of 64 samples, a response of two channels of 100 samples, twiddle factors
    that are exact powers of the rounded root.  The relative error is then below 1/1500. *)
Example C57_example :
  let seg : audio Rarith := [tab 100 (fun i => / INR (S i)); tab 100 (fun i => INR i / 200)] in
  let F := SingleWith exact_power in
  exists mu, @multi_make F 3 16 4 seg = Ok mu /\
    convolves_within 3 128 (fun len => len = 16%nat) (response seg)
      (fun X c => td_error (3 * INR 128 * u24) 7 2 64 (response seg c) X)
      (@multi_process F) (@multi_reset F) mu /\
    blowup (3 * INR 128 * u24) 7 2 <= / 1500.
Proof.
  intros seg F.
  assert (E128 : INR 128 = 128) by (rewrite INR_IZR_INZ; reflexivity).
  destruct (C57_time_distributed_accuracy exact_power (3 * INR (2 ^ 7) * u24) 3 4 2 100 seg) as (mu & E & H).
  - lia.
  - change (2 ^ 7)%nat with 128%nat. rewrite E128. unfold u24. lra.
  - apply (exact_power_accurate 7). lia.
  - cbn. lia.
  - split; [reflexivity|]. intros c [<-|[<-|[]]]; apply tab_length.
  - lia.
  - lia.
  - exists mu. split; [exact E|]. split; [exact H|].
    unfold blowup. rewrite E128.
    pose proof (power_cap (3 * 128 * u24 + 12 * u24) 21) as C1. pose proof (power_cap (2 * u24) 5) as C2.
    assert (E21 : INR 21 = 21) by (rewrite INR_IZR_INZ; reflexivity).
    assert (E5 : INR 5 = 5) by (rewrite INR_IZR_INZ; reflexivity).
    rewrite E21 in C1. rewrite E5 in C2. unfold u24 in *. change (3 * 7)%nat with 21%nat. change (2 + 3)%nat with 5%nat.
    specialize (C1 ltac:(lra) ltac:(lra)). specialize (C2 ltac:(lra) ltac:(lra)).
    set (p := (1 + (3 * 128 * / 16777216 + 12 * / 16777216)) ^ 21) in *.
    set (q := (1 + 2 * / 16777216) ^ 5) in *.
    assert (0 < p) by (apply pow_lt; lra). assert (0 < q) by (apply pow_lt; lra). nra.
Qed.

(** C58.  The transforms in [float].  Forward: all the errors together (root of the sum of the squares) are a fraction
    [transform_error] of the energy of the exact transform, which is [sqrt (2^k)] times the energy of the data.
    Forward and back: every point is off by at most such a fraction of the energy of the data.
    The same for the decomposed transforms at any depth, which put out the same numbers. *)
Theorem C58_fft_accuracy : forall pow tau k x,
  let F := SingleWith pow in
  (0 < k)%nat -> 0 <= tau <= / 4 -> pow_accurate pow (@cis F) (@cis_neg F) k tau -> length x = (2 ^ k)%nat ->
  exists y z, @ForwardFFTUnordered F (2 ^ k) x = Ok y /\ @InverseFFTUnordered F (2 ^ k) y = Ok z /\
    energy (2 ^ k) (fun p => cdist (nth p y (0, 0)) (@dft Rarith (2 ^ k) x (bitrev k p)))
      <= transform_error tau k * (sqrt (INR (2 ^ k)) * data_level k x) /\
    (forall t, (t < 2 ^ k)%nat ->
       cdist (nth t z (0, 0)) (nth t x (0, 0)) <= transform_error tau (2 * k) * data_level k x) /\
    forall nd, (nd <= k)%nat -> @forward_via F k nd x = Ok y /\ @inverse_via F k nd y = Ok z.
Proof.
  intros pow tau k x F Hk Htau Hpow Hx.
  assert (Ly : length (@dif F k x) = (2 ^ k)%nat) by now apply (@dif_length F).
  exists (@dif F k x), (@idif F k (@dif F k x)).
  pose proof (@ForwardFFTUnordered_dif F k x []) as E1. rewrite !app_nil_r in E1. specialize (E1 Hx).
  pose proof (@InverseFFTUnordered_idif F k (@dif F k x) []) as E2. rewrite !app_nil_r in E2. specialize (E2 Ly).
  split; [exact E1|]. split; [exact E2|].
  assert (EN : (2 ^ k = 2 * 2 ^ (k - 1))%nat).
  { replace k with (S (k - 1)) at 1 by lia. reflexivity. }
  set (SL := data_level k x).
  assert (HS : en (2 ^ k) x + pad (2 ^ (k - 1)) <= SL).
  { unfold SL, data_level, pad, en. apply Rplus_le_compat_l. apply Rmult_le_compat_r; [pose proof floor_pos; lra|].
    apply sqrt_le_1_alt, le_INR. lia. }
  destruct (spectrum pow k tau Hpow Htau k (2 ^ (k - 1)) 1 EN (le_n k) Nat.lt_0_1 x SL Hx HS) as [SW SD].
  assert (HN : (0 < INR (2 ^ k))) by apply lt_0_INR, pow2_pos.
  pose proof (rN_pos' k) as RN. pose proof (rN_sq k) as RS.
  pose proof (c_ge1 tau Htau k) as C1. pose proof floor_pos as FP. pose proof floor_phi as FF.
  split; [|split].
  - unfold transform_error. change (tau + 12 * u24) with (gfac tau). change (sqrt (INR (2 ^ k))) with (rN k).
    rewrite (energy_ext _ _ (Df pow k x)).
    + eapply Rle_trans; [exact SD|]. right. ring.
    + intros p Hp. unfold Df. f_equal. symmetry. apply (@dif_dft Rarith Rarith_laws); auto.
  - intros t Ht.
    destruct (idif_near pow k tau Hpow Htau k (le_n k) (@dif F k x) (@dif Rarith k x) (Wf k x) (fun b => Wf k x b + Df pow k x b)) with (t := t)
      as [_ G]; auto.
    + now apply (@dif_length Rarith).
    + intros i Hi. split; [apply spectrum_near|]. pose proof (Wf_floor k x i). pose proof phi_pos.
      assert (8 * phi <= floor50); [|lra]. pose proof floor_sq. assert (floor50 <= / 2) by (unfold floor50; lra). nra.
    + rewrite (@idif_dif Rarith Rarith_laws) in G by auto.
      eapply Rle_trans; [exact G|]. rewrite rsum_plus.
      assert (L1 : forall f, rsum (2 ^ k) f <= rN k * energy (2 ^ k) f).
      { intros f. pose proof (cauchy (2 ^ k) (fun _ => 1) f) as C. rewrite energy_const in C by lra. rewrite Rmult_1_r in C.
        rewrite <- (rsum_ext _ (fun i => 1 * f i) f) by (intros; ring). exact C. }
      assert (B1 : rsum (2 ^ k) (Wf k x) / INR (2 ^ k) <= SL).
      { apply Rmult_le_reg_r with (INR (2 ^ k)); [lra|]. unfold Rdiv. rewrite Rmult_assoc, Rinv_l, Rmult_1_r by lra.
        rewrite <- RS. eapply Rle_trans; [apply L1|]. nra. }
      assert (B2 : rsum (2 ^ k) (Df pow k x) / INR (2 ^ k) <= ((1 + gfac tau) ^ k - 1) * SL).
      { apply Rmult_le_reg_r with (INR (2 ^ k)); [lra|]. unfold Rdiv. rewrite Rmult_assoc, Rinv_l, Rmult_1_r by lra.
        rewrite <- RS. eapply Rle_trans; [apply L1|]. nra. }
      unfold transform_error. change (tau + 12 * u24) with (gfac tau).
      replace (2 * k)%nat with (k + k)%nat by lia. rewrite pow_add. unfold Rdiv in *. rewrite Rmult_plus_distr_r.
      set (c := (1 + gfac tau) ^ k) in *. set (W := rsum (2 ^ k) (Wf k x) * / INR (2 ^ k)) in *.
      set (D := rsum (2 ^ k) (Df pow k x) * / INR (2 ^ k)) in *. nra.
  - intros nd Hnd. destruct (@C04_depth_irrelevant F k nd x Hnd Hx) as [(y & G1 & G2) _].
    destruct (@C04_depth_irrelevant F k nd (@dif F k x) Hnd Ly) as [_ (z & G3 & G4)].
    unfold F in *. rewrite E1 in G1. injection G1 as <-. rewrite E2 in G3. injection G3 as <-. split; assumption.
Qed.
Print Assumptions C58_fft_accuracy.

Example C58_example :
  let F := SingleWith exact_power in
  let x : list (R * R) := tab 1024 (fun i => (INR i, - / INR (S i))) in
  let tau := 3 * INR 1024 * u24 in
  (exists y z : list (R * R), @ForwardFFTUnordered F (2 ^ 10) x = Ok y /\ @InverseFFTUnordered F (2 ^ 10) y = Ok z /\
     energy (2 ^ 10) (fun p => cdist (nth p y (0, 0)) (@dft Rarith (2 ^ 10) x (bitrev 10 p)))
       <= transform_error tau 10 * (sqrt (INR (2 ^ 10)) * data_level 10 x) /\
     forall t, (t < 2 ^ 10)%nat -> cdist (nth t z (0, 0)) (nth t x (0, 0)) <= transform_error tau (2 * 10) * data_level 10 x) /\
  transform_error tau 10 <= / 400 /\ transform_error tau 20 <= / 200.
Proof.
  intros F x tau. assert (EK : INR 1024 = 1024) by (rewrite INR_IZR_INZ; reflexivity).
  assert (Ht : tau = 3072 * u24) by (unfold tau; rewrite EK; ring).
  split.
  - destruct (C58_fft_accuracy exact_power tau 10 x) as (y & z & H1 & H2 & H3 & H4 & _); try lia.
    + rewrite Ht. unfold u24. lra.
    + unfold tau. apply (exact_power_accurate 10). lia.
    + apply tab_length.
    + exists y, z. split; [exact H1|]. split; [exact H2|]. split; [exact H3|exact H4].
  - unfold transform_error. rewrite Ht.
    assert (E10 : INR 10 = 10) by (rewrite INR_IZR_INZ; reflexivity).
    assert (E20 : INR 20 = 20) by (rewrite INR_IZR_INZ; reflexivity).
    pose proof (power_cap (3072 * u24 + 12 * u24) 10) as C1. pose proof (power_cap (3072 * u24 + 12 * u24) 20) as C2.
    rewrite E10 in C1. rewrite E20 in C2. unfold u24 in *. specialize (C1 ltac:(lra) ltac:(lra)). specialize (C2 ltac:(lra) ltac:(lra)).
    lra.
Qed.

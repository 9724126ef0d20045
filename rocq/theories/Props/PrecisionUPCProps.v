(** * C59: accuracy of the uniformly partitioned convolver in single precision *)
From Coq Require Import Reals Lra Lia.
From Verif.Model Require Import Base Arith ArithReal ArithSingle Juce Float32 UniformPartitionedConvolver.
From Verif.Spec Require Import Transform Buffers Signal Precision.
From Verif.Proofs Require Import Lists ComplexAlg Blocks Streams StreamsQ RealFFTProof UPCProof UPCFloat
     Norms SingleProof SingleFFT SingleTD SingleStreams SingleRoots SingleUPC SingleReal.
From Verif.Props Require Import UPCProps PrecisionProps.
Open Scope R_scope.


(** C59.  The uniformly partitioned convolver in [float]: [n] channels, partitions of [P] samples, [2^k] the size of the
    transforms.  [Rf] is whatever [juce::dsp::FFT] computes, within [delta]. *)
Theorem C59_uniform_accuracy : forall pow (Rf : rfft (SingleWith pow)) delta k n P m (ir : audio Rarith),
  (0 < P)%nat -> (2 ^ (k - 1) < 2 * P <= 2 ^ k)%nat ->
  0 <= delta -> rfft_accurate (@rfft_fwd _ Rf) (@rfft_inv _ Rf) k delta ->
  (0 < n)%nat -> (0 < length ir)%nat -> block_of (length ir) m ir -> (0 < m)%nat -> (Z.of_nat m <= 2 ^ 24)%Z ->
  exists u, @upc_make _ Rf n P ir = Ok u /\
    convolves_within n 0 (fun _ => True) (response ir)
      (fun X c => upc_error delta (parts P m) (2 ^ k) P (response ir c) X)
      (@upc_process _ Rf) (@upc_reset _) u.
Proof.
  intros pow Rf delta k n P m ir HP Hk2 Hd HR Hn Hl Hsh Hm H24. set (F := SingleWith pow) in *.
  pose proof (acc_fwd_length _ _ _ _ HR) as L1. pose proof (acc_inv_length _ _ _ _ HR) as L2.
  destruct (@UPCFloat.upc_make_ok F Rf L1 n P ir m) as (k' & K & u & Hk & (HF & Ek) & HK & (HKm & HKl) & E & Hst); auto.
  assert (k' = k).
  { unfold next_pow2 in Ek. apply Nat.pow_inj_r in Ek; [|lia]. subst k'. apply Nat.log2_up_unique; [|].
    - destruct k; [cbn in Hk2; lia|lia].
    - replace (Nat.pred k) with (k - 1)%nat by lia. lia. }
  subst k'. exists u. split; [exact E|].
  assert (EK : parts P m = K) by (apply parts_unique; auto). rewrite EK.
  apply convolves_within_gen with (N := (K * P)%nat)
    (Inv := fun x T u' => @UPCFloat.at_rest_or_mid F Rf n P k K (@ir_fun F ir) x T u').
  - intros c Hc. unfold response. destruct Hsh as [_ Hsh]. rewrite Hsh; auto.
    apply nth_In, Nat.mod_upper_bound. lia.
  - intros x T u' len _ H'.
    destruct (@UPCFloat.upc_process_ok F Rf L1 L2 n P k K (@ir_fun F ir) x Hn HP Hk HF HK T u' len H') as (u2 & y & E2 & HO & H2).
    exists u2, y. split; [exact E2|]. split; [|exact H2].
    intros c i Hc Hi X HX.
    pose proof (upc_out_near pow Rf k delta HR Hd P K (@ir_fun F ir) x HP Hk HF HK c X
      (fun r => energy P (fun q => nth (r * P + q) (response ir c) 0) + sqrt (INR (2 ^ k)) * floor50) (HX c)
      (fun r _ => Rle_refl _) (T + i) (y c i) (HO c i Hc Hi)) as G.
    assert (E0 : @ago Rarith (@fir Rarith (K * P) (fun j => nth j (response ir c) 0) (x c)) (T + i) 0
               = @fir Rarith (K * P) (@ir_fun F ir c) (x c) (T + i)).
    { unfold ago. cbn [Nat.ltb Nat.leb]. rewrite Nat.sub_0_r. reflexivity. }
    refine (eq_ind_r (fun z => Rabs (y c i - z) <= _) _ E0). eapply Rle_trans; [exact G|]. unfold upc_error.
    pose proof floor_pos as FP.
    apply Rmult_le_compat_r.
    + apply Rmult_le_pos; [lra|]. apply Rmult_le_pos; [apply Rmult_le_pos; [apply sqrt_pos|]|].
      * specialize (HX c 0%nat). pose proof (Rabs_pos (x c 0%nat)). lra.
      * apply rsum_nonneg. intros r _. apply Rplus_le_le_0_compat; [apply sqrt_pos|].
        apply Rmult_le_pos; [apply sqrt_pos|lra].
    + apply Rplus_le_compat_r. apply Rmult_le_compat_l; [apply pow_le; lra|].
      unfold ufac. rewrite pow_add. apply Rmult_le_compat_l; [apply pow_le; unfold u24; lra|]. unfold u24. simpl. lra.
  - intros x T u' x' H'. left. exists 0%nat. split; [reflexivity|].
    eapply UPCFloat.upc_reset_ok; eauto.
  - intros x. left. exists 0%nat. split; [reflexivity|]. apply Hst.
Qed.
Print Assumptions C59_uniform_accuracy.

(** The hypotheses can be met: the radix-2 transform in [float] is such an [Rf].  Partitions of 48 samples, a response of
    100; the relative error is below 1/1500. *)
Example C59_example :
  let ir : audio Rarith := [tab 100 (fun i => / INR (S i)); tab 100 (fun i => INR i / 200)] in
  let F := SingleWith exact_power in
  let delta := transform_error (3 * INR (2 ^ 7) * u24) 7 in
  exists u, @upc_make F (@fast_rfft F) 2 48 ir = Ok u /\
    convolves_within 2 0 (fun _ => True) (response ir) (fun X c => upc_error delta 3 128 48 (response ir c) X)
      (@upc_process F (@fast_rfft F)) (@upc_reset F) u /\
    (1 + delta) ^ 3 * (1 + 2 * u24) ^ (3 + 3) - 1 <= / 1500.
Proof.
  intros ir F delta.
  assert (E128 : INR 128 = 128) by (rewrite INR_IZR_INZ; reflexivity).
  assert (Ht : 3 * INR (2 ^ 7) * u24 = 384 * u24) by (change (2 ^ 7)%nat with 128%nat; rewrite E128; ring).
  assert (E7 : INR 7 = 7) by (rewrite INR_IZR_INZ; reflexivity).
  assert (E21 : INR 21 = 21) by (rewrite INR_IZR_INZ; reflexivity).
  assert (E6 : INR 6 = 6) by (rewrite INR_IZR_INZ; reflexivity).
  assert (Hd : 0 <= delta).
  { unfold delta, transform_error. rewrite Ht.
    assert (1 <= (1 + (384 * u24 + 12 * u24)) ^ 7) by (apply pow_R1_Rle; unfold u24; lra). lra. }
  destruct (C59_uniform_accuracy exact_power (@fast_rfft F) delta 7 2 48 100 ir) as (u & E & H).
  - lia.
  - cbn. lia.
  - exact Hd.
  - apply fast_rfft_accurate; [apply (exact_power_accurate 7); lia| |lia]. rewrite Ht. unfold u24. lra.
  - lia.
  - cbn. lia.
  - split; [reflexivity|]. intros c [<-|[<-|[]]]; apply tab_length.
  - lia.
  - lia.
  - exists u. split; [exact E|]. split; [exact H|].
    assert (Eq : (1 + delta) ^ 3 = (1 + (384 * u24 + 12 * u24)) ^ 21).
    { unfold delta, transform_error. rewrite Ht. replace (1 + ((1 + (384 * u24 + 12 * u24)) ^ 7 - 1)) with ((1 + (384 * u24 + 12 * u24)) ^ 7) by ring.
      rewrite <- pow_mult. reflexivity. }
    rewrite Eq.
    pose proof (power_cap (384 * u24 + 12 * u24) 21) as C1. pose proof (power_cap (2 * u24) 6) as C2.
    rewrite E21 in C1. rewrite E6 in C2. unfold u24 in *. change (3 + 3)%nat with 6%nat.
    specialize (C1 ltac:(lra) ltac:(lra)). specialize (C2 ltac:(lra) ltac:(lra)).
    set (p := (1 + (384 * / 16777216 + 12 * / 16777216)) ^ 21) in *.
    set (q := (1 + 2 * / 16777216) ^ 6) in *.
    assert (0 < p) by (apply pow_lt; lra). assert (0 < q) by (apply pow_lt; lra). nra.
Qed.

(** * The levels of one fade, computed with Flocq's executable floating-point numbers *)
From Coq Require Import Reals Lra Lia ZArith NArith.
From Flocq Require Import Core BinarySingleNaN.
From Verif.Model Require Import Base Arith ArithSingle.
From Verif.Spec Require Import Rounded Precision.
From Verif.Proofs Require Import SingleProof.
Open Scope R_scope.

#[local] Instance P24 : FLX.Prec_gt_0 24. Proof. reflexivity. Qed.
#[local] Instance P128 : Prec_lt_emax 24 128. Proof. reflexivity. Qed.
Notation b32 := (binary_float 24 128).
Definition bz (z : Z) : b32 := binary_normalize 24 128 P24 P128 mode_NE z 0 false.
Definition bstep (n : Z) : b32 := Bdiv mode_NE (bz 1) (bz n).
Definition bup (s : b32) (k : N) : b32 := N.iter k (fun x => Bplus mode_NE x s) (B754_zero false).

Definition bdown (s : b32) (k : N) : b32 := N.iter k (fun x => Bminus mode_NE x s) (bz 1).

Lemma below_emax x : Rabs x < 4 -> Rlt_bool (Rabs (single x)) (bpow radix2 128) = true.
Proof.
  intros H. apply Rlt_bool_true. pose proof (single_err x) as E. pose proof tiny_small as T.
  assert (Rabs x * u24 <= 4 * u24) by (apply Rmult_le_compat_r; unfold u24; lra). unfold u24 in *.
  replace (single x) with ((single x - x) + x) by ring. eapply Rle_lt_trans; [apply Rabs_triang|].
  apply Rle_lt_trans with (bpow radix2 4); [cbn; lra|apply bpow_lt; lia].
Qed.

Section Run.
  Variable n : nat.
  Hypothesis Hn : (0 < n <= 2 ^ 22)%nat.
  Variable s : b32.
  Hypothesis S1 : B2R s = step n.
  Hypothesis S2 : is_finite s = true.
  Lemma small_diff k : (k < n)%nat -> Rabs (down (step n) k - step n) < 4.
  Proof.
    intros Hk. pose proof (down_err n Hn k ltac:(lia)) as E. pose proof (step_err n Hn) as ES.
    assert (P1 : 1 <= INR n) by (change 1 with (INR 1); apply le_INR; lia).
    assert (P2 : / INR n <= 1) by (rewrite <- Rinv_1; apply Rinv_le; lra). assert (P' : 0 < / INR n) by (apply Rinv_0_lt_compat; lra).
    assert (HK : 0 <= INR k) by apply pos_INR.
    assert (U : INR k <= 4194304). { replace 4194304 with (INR (2 ^ 22)) by (rewrite pow_INR; cbn [INR]; ring). apply le_INR. lia. }
    assert (X : INR k * u24 * (1 + 2 * / INR n) <= 3 / 4).
    { assert (Q : INR k * u24 <= / 4) by (unfold u24; lra). assert (Q0 : 0 <= INR k * u24) by (apply Rmult_le_pos; unfold u24; lra).
      apply Rle_trans with (INR k * u24 * 3); [apply Rmult_le_compat_l; lra|lra]. }
    assert (Y : 0 <= INR k / INR n <= 1).
    { unfold Rdiv. split; [apply Rmult_le_pos; lra|]. rewrite <- (Rinv_r (INR n)) by lra. apply Rmult_le_compat_r; [lra|]. apply le_INR. lia. }
    assert (Z : 2 * u24 * / INR n <= / 100) by (unfold u24; lra).
    apply Rabs_le_inv in E. apply Rabs_le_inv in ES. apply Rabs_lt; lra.
  Qed.
  Lemma small_sum k : (k < n)%nat -> Rabs (up (step n) k + step n) < 4.
  Proof.
    intros Hk. pose proof (up_err n Hn k ltac:(lia)) as E. pose proof (step_err n Hn) as ES.
    assert (P1 : 1 <= INR n) by (change 1 with (INR 1); apply le_INR; lia).
    assert (P2 : / INR n <= 1) by (rewrite <- Rinv_1; apply Rinv_le; lra). assert (P' : 0 < / INR n) by (apply Rinv_0_lt_compat; lra).
    assert (HK : 0 <= INR k) by apply pos_INR.
    assert (U : INR k <= 4194304). { replace 4194304 with (INR (2 ^ 22)) by (rewrite pow_INR; cbn [INR]; ring). apply le_INR. lia. }
    assert (X : INR k * u24 * (1 + 2 * / INR n) <= 3 / 4).
    { assert (Q : INR k * u24 <= / 4) by (unfold u24; lra). assert (Q0 : 0 <= INR k * u24) by (apply Rmult_le_pos; unfold u24; lra).
      apply Rle_trans with (INR k * u24 * 3); [apply Rmult_le_compat_l; lra|lra]. }
    assert (Y : 0 <= INR k / INR n <= 1).
    { unfold Rdiv. split; [apply Rmult_le_pos; lra|]. rewrite <- (Rinv_r (INR n)) by lra. apply Rmult_le_compat_r; [lra|]. apply le_INR. lia. }
    assert (Z : 2 * u24 * / INR n <= / 100) by (unfold u24; lra).
    apply Rabs_le_inv in E. apply Rabs_le_inv in ES. apply Rabs_lt; lra.
  Qed.
  Lemma bup_ok k : (k <= n)%nat -> B2R (bup s (N.of_nat k)) = up (step n) k /\ is_finite (bup s (N.of_nat k)) = true.
  Proof.
    induction k as [|k IH]; intros Hk.
    - split; reflexivity.
    - destruct (IH ltac:(lia)) as [I1 I2]. unfold bup in *. rewrite Nat2N.inj_succ, N.iter_succ.
      set (x := N.iter (N.of_nat k) _ _) in *.
      pose proof (Bplus_correct 24 128 _ _ mode_NE x s I2 S2) as H.
      rewrite I1, S1 in H. change (round radix2 (SpecFloat.fexp 24 128) (round_mode mode_NE) ?z) with (single z) in H.
      rewrite below_emax in H by (apply small_sum; lia). destruct H as (H1 & H2 & _). split; auto.
  Qed.
  Lemma bdown_ok k : (k <= n)%nat -> B2R (bdown s (N.of_nat k)) = down (step n) k /\ is_finite (bdown s (N.of_nat k)) = true.
  Proof.
    induction k as [|k IH]; intros Hk.
    - split; [|reflexivity]. cbn. unfold F2R. cbn. lra.
    - destruct (IH ltac:(lia)) as [I1 I2]. unfold bdown in *. rewrite Nat2N.inj_succ, N.iter_succ.
      set (x := N.iter (N.of_nat k) _ _) in *.
      pose proof (Bminus_correct 24 128 _ _ mode_NE x s I2 S2) as H.
      rewrite I1, S1 in H. change (round radix2 (SpecFloat.fexp 24 128) (round_mode mode_NE) ?z) with (single z) in H.
      rewrite below_emax in H by (apply small_diff; lia). destruct H as (H1 & H2 & _). split; auto.
  Qed.
End Run.


(** the in/out fade at 48 kHz: 19200 samples *)
Definition s19200 : b32 := @B754_finite 24 128 false 14316558 (-38) eq_refl.
Lemma step_19200 : B2R s19200 = step (Z.to_nat 19200).
Proof.
  pose proof (Bdiv_correct 24 128 _ _ mode_NE (bz 1) (bz 19200)) as H.
  assert (V1 : B2R (bz 1) = 1) by (rewrite <- SF2R_B2SF; vm_compute B2SF; unfold SF2R, F2R; cbn; lra).
  assert (V2 : B2R (bz 19200) = 19200) by (rewrite <- SF2R_B2SF; vm_compute B2SF; unfold SF2R, F2R; cbn; lra).
  rewrite V1, V2 in H. specialize (H ltac:(lra)). change (round radix2 (SpecFloat.fexp 24 128) (round_mode mode_NE) ?z) with (single z) in H.
  rewrite below_emax in H by (apply Rabs_lt; lra). destruct H as (H & _).
  unfold step. rewrite INR_IZR_INZ. rewrite Z2Nat.id by lia. replace (/ 19200) with (1 / 19200) by lra. rewrite <- H.
  rewrite <- !SF2R_B2SF. f_equal; vm_compute; reflexivity.
Qed.
Lemma range_19200 : (0 < Z.to_nat 19200 <= 2 ^ 22)%nat.
Proof. split; [lia|]. apply Nat2Z.inj_le. rewrite Nat2Z.inj_pow, Z2Nat.id by lia. lia. Qed.
Lemma bup_19200 : B2SF (bup s19200 19199) = SpecFloat.S754_finite false 8389475 (-23).
Proof. vm_cast_no_check (eq_refl (SpecFloat.S754_finite false 8389475 (-23))). Qed.
Lemma up_19200 : up (step (Z.to_nat 19200)) (Z.to_nat 19199) = 8389475 / 8388608.
Proof.
  destruct (bup_ok (Z.to_nat 19200) range_19200 s19200 step_19200 eq_refl (Z.to_nat 19199) ltac:(lia)) as [H _]. rewrite <- H. clear H.
  rewrite Z_nat_N. change (Z.to_N 19199) with 19199%N. rewrite <- SF2R_B2SF, bup_19200.
  unfold SF2R, F2R. cbn. lra.
Qed.
Lemma bdown_19200 : B2SF (bdown s19200 19199) = SpecFloat.S754_finite true 14208163 (-37).
Proof. vm_cast_no_check (eq_refl (SpecFloat.S754_finite true 14208163 (-37))). Qed.
Lemma down_19200 : down (step (Z.to_nat 19200)) (Z.to_nat 19199) = - 14208163 / 137438953472.
Proof.
  destruct (bdown_ok (Z.to_nat 19200) range_19200 s19200 step_19200 eq_refl (Z.to_nat 19199) ltac:(lia)) as [H _]. rewrite <- H. clear H.
  rewrite Z_nat_N. change (Z.to_N 19199) with 19199%N. rewrite <- SF2R_B2SF, bdown_19200.
  unfold SF2R, F2R. cbn. lra.
Qed.

(** * Powers of a rounded root of unity: the accuracy contract can be met *)
From Coq Require Import Reals Lra Lia Psatz ZArith.
From Verif.Model Require Import Base Arith ArithReal ArithSingle.
From Verif.Spec Require Import Transform Signal Precision.
From Verif.Proofs Require Import Norms SingleProof SingleFFT.
Open Scope R_scope.

(** the exact power of the rounded root *)
Definition exact_power : R * R -> nat -> R * R := @cpow Rarith.

Lemma power_err (w v : R * R) d e : modulus v = 1 -> cdist w v <= d ->
  cdist (@cpow Rarith w e) (@cpow Rarith v e) <= (1 + d) ^ e - 1.
Proof.
  intros Hv Hd. assert (0 <= d) by (pose proof (cdist_nonneg w v); lra).
  assert (Hm : forall j, modulus (@cpow Rarith v j) = 1).
  { induction j as [|j IH]; cbn [cpow].
    - unfold modulus, c1. cbn. replace (1 * 1 + 0 * 0) with 1 by ring. apply sqrt_1.
    - rewrite modulus_mul, Hv, IH. ring. }
  induction e as [|e IH].
  - cbn [cpow Rpow_def.pow]. rewrite cdist_same. lra.
  - cbn [cpow Rpow_def.pow].
    eapply Rle_trans; [apply cmul_pert|].
    pose proof (cdist_bound w v) as B1. rewrite Hv in B1.
    pose proof (cdist_bound (@cpow Rarith w e) (@cpow Rarith v e)) as B2. rewrite Hm in B2.
    pose proof (cdist_nonneg (@cpow Rarith w e) (@cpow Rarith v e)). pose proof (cdist_nonneg w v).
    pose proof (modulus_nonneg w). pose proof (modulus_nonneg (@cpow Rarith w e)).
    rewrite ?Hm, ?Hv. nra.
Qed.

Lemma power_cap x n : 0 <= x -> INR n * x <= / 8 -> (1 + x) ^ n - 1 <= 8 / 7 * (INR n * x).
Proof.
  intros Hx. assert (G : forall m, INR m * x <= / 8 -> (1 + x) ^ m * (1 - INR m * x) <= 1).
  { induction m as [|m IH]; intros Hm.
    - cbn. lra.
    - rewrite S_INR in *. pose proof (pos_INR m). specialize (IH ltac:(nra)).
      cbn [Rpow_def.pow]. assert (0 < (1 + x) ^ m) by (apply pow_lt; lra).
      assert ((1 + x) * (1 - (INR m + 1) * x) <= 1 - INR m * x) by nra. nra. }
  intros Hn. specialize (G n Hn). set (p := (1 + x) ^ n) in *. set (y := INR n * x) in *.
  assert (1 <= p) by (apply pow_R1_Rle; lra).
  assert (Hy : 0 <= y) by (apply Rmult_le_pos; [apply pos_INR|lra]). assert (p <= 8 / 7) by nra. nra.
Qed.

Lemma root_dist pow n : cdist (@cis (SingleWith pow) n) (@cis Rarith n) <= 2 * u24 /\
                        cdist (@cis_neg (SingleWith pow) n) (@cis_neg Rarith n) <= 2 * u24.
Proof.
  assert (B : forall z, -1 <= z <= 1 -> Rabs (single z - z) <= u24).
  { intros z Hz. apply single_err2. apply Rabs_def1; lra. }
  pose proof (B _ (COS_bound (2 * PI / INR n))) as B1. pose proof (B _ (SIN_bound (2 * PI / INR n))) as B2.
  pose proof u24_pos. unfold cdist, cis, cis_neg. cbn [scos ssin sopp SingleWith Rarith fst snd].
  split; (eapply Rle_trans; [apply (modulus_parts _ u24); cbn [fst snd]|lra]); auto.
  replace (- single (sin (2 * PI / INR n)) - - sin (2 * PI / INR n)) with (- (single (sin (2 * PI / INR n)) - sin (2 * PI / INR n))) by ring.
  now rewrite Rabs_Ropp.
Qed.

Lemma exact_power_accurate k : (k <= 20)%nat ->
  pow_accurate exact_power (@cis (SingleWith exact_power)) (@cis_neg (SingleWith exact_power)) k (3 * INR (2 ^ k) * u24).
Proof.
  intros Hk j e Hj He. pose proof u24_pos as U.
  assert (Hn : (0 < 2 * 2 ^ j)%nat) by (pose proof (Nat.pow_nonzero 2 j); lia).
  destruct (root_dist exact_power (2 * 2 ^ j)) as [D1 D2].
  assert (K20 : INR (2 ^ k) <= 1048576).
  { apply Rle_trans with (INR (2 ^ 20)); [apply le_INR, Nat.pow_le_mono_r; lia|].
    rewrite pow_INR. change (INR 2) with 2. lra. }
  assert (Cap : (1 + 2 * u24) ^ e - 1 <= 3 * INR (2 ^ k) * u24).
  { assert (Ee : INR e <= INR (2 ^ k)). { apply le_INR. apply Nat.le_trans with (2 ^ j)%nat; [lia|]. apply Nat.pow_le_mono_r; lia. }
    pose proof (pos_INR e).
    eapply Rle_trans; [apply power_cap; [lra|]|].
    - unfold u24 in *. nra.
    - unfold u24 in *. nra. }
  split; (eapply Rle_trans; [apply power_err with (d := 2 * u24)|]); auto.
  - rewrite <- (unit_root_neg (2 * 2 ^ j) 1 Hn). cbn [cpow]. rewrite modulus_mul.
    replace (modulus (@c1 Rarith)) with 1; [ring|]. symmetry. exact (unit_root 1 0 Nat.lt_0_1).
  - rewrite <- (unit_root (2 * 2 ^ j) 1 Hn). cbn [cpow]. rewrite modulus_mul.
    replace (modulus (@c1 Rarith)) with 1; [ring|]. symmetry. exact (unit_root 1 0 Nat.lt_0_1).
Qed.

(** * Fade lengths: exact for integer sample rates *)
From Coq Require Import ZArith Bool Lia Psatz.
From Verif.Model Require Import Base Float32 Partitioning Convolver ConvolutionEngine.
From Verif.Proofs Require Import Lists FloatProof FloatMono FadeProof.
Local Open Scope Z_scope.

(** What is closer to the integer [j] than a quarter of the spacing of the floats around it is rounded to [j]. *)
Lemma f_rnd_near p q j : 0 < q -> 0 < j <= 2 ^ 23 -> Z.abs (p - j * q) * 2 ^ 25 < j * q ->
  f_num (f_rnd p q) = j * f_den (f_rnd p q).
Proof.
  intros Hq Hj HA. change (2 ^ 25) with 33554432 in HA. change (2 ^ 23) with 8388608 in Hj.
  assert (Hp : 0 < p) by nia.
  destruct (f_rnd_spec p q) as (e & M & p' & q' & -> & -> & -> & Hq' & Hr & HM & HMr); try lia.
  unfold f_num, f_den. cbn [f_exp f_man]. unfold scale_num, scale_den in *.
  change (2 ^ 24) with 16777216 in *. change (2 ^ 23) with 8388608 in *.
  destruct (Z.leb_spec 0 e) as [He|He].
  - assert (e = 0).
    { assert (e < 1); [|lia]. apply Z.nle_gt. intros C.
      assert (2 ^ 1 <= 2 ^ e) by (apply Z.pow_le_mono_r; lia). change (2 ^ 1) with 2 in H. nia. }
    subst e. rewrite Z.pow_0_r, !Z.mul_1_r in *. rewrite HM. apply Z.le_antisymm.
    + apply Z.lt_succ_r. apply rhe_lt; [lia|]. nia.
    + apply Z.lt_pred_le. apply rhe_gt; [lia|]. nia.
  - pose proof (pow2_pos' (- e) ltac:(lia)) as Hs. set (s := 2 ^ (- e)) in *. clearbody s.
    assert (J : j * s <= 16777216).
    { apply Z.nlt_ge. intros C. assert (p * s < q * 16777216) by lia.
      assert (H1 : 16777217 * q <= j * s * q) by nia.
      assert (H2 : (j * q - p) * s * 33554432 < j * q * s) by nia. nia. }
    rewrite HM. apply Z.le_antisymm.
    + apply Z.lt_succ_r. apply rhe_lt; [lia|].
      assert ((p - j * q) * s * 33554432 < j * q * s) by nia. nia.
    + apply Z.lt_pred_le. apply rhe_gt; [lia|].
      assert ((j * q - p) * s * 33554432 < j * q * s) by nia. nia.
Qed.

(** [k] is [tn/td] up to a relative error of 2^-25 *)
Lemma ceil_exact (k : f32) tn td n :
  0 < f_num k -> 0 < td -> 0 < tn -> 0 < n <= 2 ^ 24 ->
  Z.abs (f_num k * td - tn * f_den k) * 2 ^ 25 < tn * f_den k ->
  2 * (tn * n) <= 2 ^ 24 ->
  f_ceil (f_mul k (f_rnd n 1)) = zceil (tn * n) td.
Proof.
  intros Hk Htd Htn Hn Ek HX. fold (f_of_Z n). unfold f_mul.
  pose proof (f_of_Z_exact n ltac:(lia)) as E. rewrite E. pose proof (f_den_pos k) as Dk. pose proof (f_den_pos (f_of_Z n)) as Dn.
  set (nd := f_den (f_of_Z n)) in *. set (kn := f_num k) in *. set (kd := f_den k) in *. clearbody kn kd nd. clear E.
  pose proof (zceil_spec (tn * n) td Htd) as Z1. set (j := zceil (tn * n) td) in *. clearbody j.
  change (2 ^ 25) with 33554432 in Ek. change (2 ^ 24) with 16777216 in HX.
  assert (HD : 0 < kd * nd) by nia.
  assert (Hnn : 0 < n * nd) by nia.
  assert (A : Z.abs (kn * n * td - tn * n * kd) * 33554432 < tn * n * kd).
  { replace (kn * n * td - tn * n * kd) with ((kn * td - tn * kd) * n) by ring. rewrite Z.abs_mul, (Z.abs_eq n) by lia. nia. }
  set (p := kn * (n * nd)). set (q := kd * nd).
  assert (Hp : 0 < p) by (unfold p; nia).
  destruct (Z.eq_dec (tn * n) (j * td)) as [Ej|Nj].
  - apply ceil_spec. assert (Hj : 0 < j <= 8388608) by nia.
    rewrite (f_rnd_near p q j); auto; [pose proof (f_den_pos (f_rnd p q)); nia|].
    change (2 ^ 25) with 33554432. unfold p, q.
    assert (A' : Z.abs (kn * n - j * kd) * 33554432 < j * kd).
    { replace (kn * n * td - tn * n * kd) with ((kn * n - j * kd) * td) in A by (rewrite Ej; ring).
      rewrite Z.abs_mul, (Z.abs_eq td) in A by lia. rewrite Ej in A. nia. }
    replace (kn * (n * nd) - j * (kd * nd)) with ((kn * n - j * kd) * nd) by ring. rewrite Z.abs_mul, (Z.abs_eq nd) by lia. nia.
  - apply ceil_spec. pose proof (f_rnd_error p q ltac:(lia) HD) as Er. pose proof (f_den_pos (f_rnd p q)) as Dm.
    set (mn := f_num (f_rnd p q)) in *. set (md := f_den (f_rnd p q)) in *. clearbody mn md.
    change (2 ^ 24) with 16777216 in Er.
    assert (Q1 : p * td * 33554432 < tn * n * q * 33554433).
    { unfold p, q. assert (kn * n * td * 33554432 < tn * n * kd * 33554433) by lia. nia. }
    assert (Q2 : tn * n * q * 33554431 < p * td * 33554432).
    { unfold p, q. assert (tn * n * kd * 33554431 < kn * n * td * 33554432) by lia. nia. }
    assert (R1 : mn * q * 16777216 <= p * md * 16777217) by nia.
    assert (R2 : p * md * 16777215 <= mn * q * 16777216) by nia.
    fold q in HD. clearbody p q. set (T := tn * n) in *. assert (HT : 0 < T) by (unfold T; nia). clearbody T.
    clear Er A Ek.
    (* mn/md <= T/td * (1 + 2^-25)(1 + 2^-24) *)
    assert (S1 : mn * td * 16777216 * 33554432 < T * md * 33554433 * 16777217).
    { apply Z.nle_gt. intros C.
      assert (mn * q * 16777216 * (td * 33554432) <= p * md * 16777217 * (td * 33554432)) by nia.
      assert (p * td * 33554432 * (md * 16777217) < T * q * 33554433 * (md * 16777217)) by nia.
      assert (T * md * 33554433 * 16777217 * q <= mn * td * 16777216 * 33554432 * q) by nia. lia. }
    assert (S2 : T * md * 33554431 * 16777215 < mn * td * 16777216 * 33554432).
    { apply Z.nle_gt. intros C.
      assert (p * md * 16777215 * (td * 33554432) <= mn * q * 16777216 * (td * 33554432)) by nia.
      assert (T * q * 33554431 * (md * 16777215) < p * td * 33554432 * (md * 16777215)) by nia.
      assert (mn * td * 16777216 * 33554432 * q <= T * md * 33554431 * 16777215 * q) by nia. lia. }
    assert (U1 : T <= j * td - 1) by lia. assert (U2 : (j - 1) * td + 1 <= T) by lia.
    change (33554433 * 16777217) with 562949986975745 in *.
    replace (T * md * 33554433 * 16777217) with (T * md * 562950003752961) in S1 by ring.
    replace (T * md * 33554431 * 16777215) with (T * md * 562949903089665) in S2 by ring.
    replace (mn * td * 16777216 * 33554432) with (mn * td * 562949953421312) in S1, S2 by ring.
    split.
    + apply Z.nle_gt. intros C.
      assert (mn * td <= (j - 1) * md * td) by nia.
      assert (T * 562949903089665 < (j - 1) * td * 562949953421312).
      { apply Z.nle_gt. intros F. assert ((j - 1) * td * 562949953421312 * md <= T * 562949903089665 * md) by nia. lia. }
      lia.
    + apply Z.nlt_ge. intros C.
      assert (j * md * td < mn * td) by nia.
      assert (j * td * 562949953421312 < T * 562950003752961).
      { apply Z.nle_gt. intros F. assert (T * 562950003752961 * md <= j * td * 562949953421312 * md) by nia. lia. }
      lia.
Qed.

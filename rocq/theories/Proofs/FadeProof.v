(** * Fade lengths *)
From Coq Require Import ZArith Bool Lia Psatz.
From Verif.Model Require Import Base Float32 Partitioning Convolver ConvolutionEngine.
From Verif.Proofs Require Import Lists FloatProof FloatMono.
Local Open Scope Z_scope.


(** rounding of a product of two approximated numbers: within (1 + 2^-24)^3 *)
Lemma mul_close (k : f32) tn td num den :
  0 < f_num k -> 0 < td -> 0 <= tn -> 0 <= num -> 0 < den ->
  Z.abs (f_num k * td - tn * f_den k) * 2 ^ 24 <= tn * f_den k ->
  let m := f_mul k (f_rnd num den) in
  f_num m * (2 ^ 24) ^ 3 * (den * td) <= tn * num * f_den m * (2 ^ 24 + 1) ^ 3 /\
  tn * num * f_den m * (2 ^ 24 - 1) ^ 3 <= f_num m * (2 ^ 24) ^ 3 * (den * td).
Proof.
  intros Hk Htd Htn Hnum Hden Ek. cbv zeta. unfold f_mul.
  pose proof (f_rnd_error num den Hnum Hden) as Er. pose proof (f_den_pos k) as Dk.
  pose proof (f_den_pos (f_rnd num den)) as Dr. pose proof (f_rnd_nonneg num den Hden) as Nr.
  set (rn := f_num (f_rnd num den)) in *. set (rd := f_den (f_rnd num den)) in *.
  set (kn := f_num k) in *. set (kd := f_den k) in *.
  assert (Hkr : 0 <= kn * rn) by nia. assert (Hkd : 0 < kd * rd) by nia.
  pose proof (f_rnd_error (kn * rn) (kd * rd) Hkr Hkd) as Em.
  pose proof (f_den_pos (f_rnd (kn * rn) (kd * rd))) as Dm.
  pose proof (f_rnd_nonneg (kn * rn) (kd * rd) Hkd) as Nm.
  set (mn := f_num (f_rnd (kn * rn) (kd * rd))) in *. set (md := f_den (f_rnd (kn * rn) (kd * rd))) in *.
  clearbody rn rd kn kd mn md.
  set (U := 2 ^ 24) in *. assert (HU : 1 < U) by (unfold U; lia). clearbody U.
  assert (K1 : kn * td * U <= tn * kd * (U + 1)) by nia.
  assert (K2 : tn * kd * (U - 1) <= kn * td * U) by nia.
  assert (R1 : rn * den * U <= num * rd * (U + 1)) by nia.
  assert (R2 : num * rd * (U - 1) <= rn * den * U) by nia.
  assert (M1 : mn * (kd * rd) * U <= kn * rn * md * (U + 1)) by nia.
  assert (M2 : kn * rn * md * (U - 1) <= mn * (kd * rd) * U) by nia.
  clear Ek Er Em.
  assert (KR1 : (kn * td * U) * (rn * den * U) <= (tn * kd * (U + 1)) * (num * rd * (U + 1))).
  { apply Z.mul_le_mono_nonneg; auto; nia. }
  assert (KR2 : (tn * kd * (U - 1)) * (num * rd * (U - 1)) <= (kn * td * U) * (rn * den * U)).
  { apply Z.mul_le_mono_nonneg; auto; nia. }
  split; apply (proj2 (Z.mul_le_mono_pos_r _ _ (kd * rd) Hkd)).
  - replace (mn * U ^ 3 * (den * td) * (kd * rd)) with (mn * (kd * rd) * U * (U * U * (den * td))) by ring.
    replace (tn * num * md * (U + 1) ^ 3 * (kd * rd))
      with ((tn * kd * (U + 1)) * (num * rd * (U + 1)) * (md * (U + 1))) by ring.
    transitivity (kn * rn * md * (U + 1) * (U * U * (den * td))).
    + apply Z.mul_le_mono_nonneg_r; auto. assert (0 < den * td) by nia. nia.
    + replace (kn * rn * md * (U + 1) * (U * U * (den * td)))
        with ((kn * td * U) * (rn * den * U) * (md * (U + 1))) by ring.
      apply Z.mul_le_mono_nonneg_r; auto. nia.
  - replace (mn * U ^ 3 * (den * td) * (kd * rd)) with (mn * (kd * rd) * U * (U * U * (den * td))) by ring.
    replace (tn * num * md * (U - 1) ^ 3 * (kd * rd))
      with ((tn * kd * (U - 1)) * (num * rd * (U - 1)) * (md * (U - 1))) by ring.
    transitivity (kn * rn * md * (U - 1) * (U * U * (den * td))).
    + replace (kn * rn * md * (U - 1) * (U * U * (den * td)))
        with ((kn * td * U) * (rn * den * U) * (md * (U - 1))) by ring.
      apply Z.mul_le_mono_nonneg_r; auto. nia.
    + apply Z.mul_le_mono_nonneg_r; auto. assert (0 < den * td) by nia. nia.
Qed.

Lemma f_ceil_bounds f : f_num f <= f_ceil f * f_den f < f_num f + f_den f.
Proof.
  unfold f_ceil. pose proof (f_den_pos f). pose proof (Z.div_mod (- f_num f) (f_den f) ltac:(lia)).
  pose proof (Z.mod_pos_bound (- f_num f) (f_den f) ltac:(lia)). nia.
Qed.

(** at most one sample below and less than two above [tn/td * num/den] *)
Lemma ceil_close (k : f32) tn td num den :
  0 < f_num k -> 0 < td -> 0 <= tn -> 0 <= num -> 0 < den ->
  Z.abs (f_num k * td - tn * f_den k) * 2 ^ 24 <= tn * f_den k ->
  tn * num <= 2 ^ 22 * (den * td) ->
  let c := f_ceil (f_mul k (f_rnd num den)) in
  tn * num - den * td < c * (den * td) < tn * num + 2 * (den * td).
Proof.
  intros Hk Htd Htn Hnum Hden Ek HX. cbv zeta.
  destruct (mul_close k tn td num den) as [B1 B2]; auto.
  set (m := f_mul k (f_rnd num den)) in *. pose proof (f_ceil_bounds m) as C. pose proof (f_den_pos m) as Dm.
  set (c := f_ceil m) in *. set (mn := f_num m) in *. set (md := f_den m) in *.
  clearbody c mn md. assert (HD : 0 < den * td) by nia. assert (HT : 0 <= tn * num) by nia.
  set (D := den * td) in *. set (T := tn * num) in *. clearbody D T.
  change ((2 ^ 24) ^ 3) with 4722366482869645213696 in *.
  change ((2 ^ 24 + 1) ^ 3) with 4722367327294625677313 in B1.
  change (2 ^ 22) with 4194304 in HX.
  assert (E1 : mn * D < md * (T + D)).
  { apply Z.nle_gt. intros F. assert (0 < md) by auto.
    assert (md * (T + D) * 4722366482869645213696 <= T * md * 4722367327294625677313) by nia.
    assert ((T + D) * 4722366482869645213696 <= T * 4722367327294625677313) by nia. lia. }
  assert (E2 : md * (T - D) < mn * D).
  { apply Z.nle_gt. intros F. assert (0 < md) by auto.
    assert (T * md * (2 ^ 24 - 1) ^ 3 <= md * (T - D) * 4722366482869645213696) by nia.
    assert (T * (2 ^ 24 - 1) ^ 3 <= (T - D) * 4722366482869645213696) by nia.
    revert H1. vm_compute ((2 ^ 24 - 1) ^ 3). lia. }
  split.
  - apply Z.nle_gt. intros F. assert (c * D * md <= (T - D) * md) by nia. nia.
  - apply Z.nle_gt. intros F. assert ((T + 2 * D) * md <= c * D * md) by nia. nia.
Qed.

Lemma k_lower : 0 < f_num kLowerFadeTimeS /\ Z.abs (f_num kLowerFadeTimeS * 10 - 1 * f_den kLowerFadeTimeS) * 2 ^ 24 <= 1 * f_den kLowerFadeTimeS.
Proof. split; vm_compute; congruence. Qed.
Lemma k_upper : 0 < f_num kUpperFadeTimeS /\ Z.abs (f_num kUpperFadeTimeS * 1 - 4 * f_den kUpperFadeTimeS) * 2 ^ 24 <= 4 * f_den kUpperFadeTimeS.
Proof. split; vm_compute; congruence. Qed.
Lemma k_longest : 0 < f_num kMaxCrossFadeIrTimeS /\ Z.abs (f_num kMaxCrossFadeIrTimeS * 1 - 10 * f_den kMaxCrossFadeIrTimeS) * 2 ^ 24 <= 10 * f_den kMaxCrossFadeIrTimeS.
Proof. split; vm_compute; congruence. Qed.
Lemma k_inout : 0 < f_num kInOutFadeTimeS /\ Z.abs (f_num kInOutFadeTimeS * 10 - 4 * f_den kInOutFadeTimeS) * 2 ^ 24 <= 4 * f_den kInOutFadeTimeS.
Proof. split; vm_compute; congruence. Qed.
Lemma k_ratio : 0 < f_num kFadeRatio /\ Z.abs (f_num kFadeRatio * 100 - 14 * f_den kFadeRatio) * 2 ^ 24 <= 14 * f_den kFadeRatio.
Proof. split; vm_compute; congruence. Qed.

Lemma f_mul_le_ceil a b c : 0 <= f_num a -> 0 <= f_num c -> f_le a b -> f_ceil (f_mul a c) <= f_ceil (f_mul b c).
Proof. intros. apply f_ceil_mono, f_mul_mono; auto. unfold f_le. lia. Qed.
Lemma f_mul_le_ceil_r a b c : 0 <= f_num a -> 0 <= f_num c -> f_le b c -> f_ceil (f_mul a b) <= f_ceil (f_mul a c).
Proof. intros. apply f_ceil_mono, f_mul_mono; auto. unfold f_le. lia. Qed.

Lemma f_ceil_pos f : 0 < f_num f -> 0 < f_ceil f.
Proof. intros H. pose proof (f_ceil_bounds f). pose proof (f_den_pos f). nia. Qed.

(** the bounds exist and are ordered at every rate up to 100 MHz *)
Lemma bounds_ok (s : process_spec) :
  0 < ps_rate_num s -> 0 < ps_rate_den s -> ps_rate_num s <= 100000000 * ps_rate_den s ->
  exists b, engine_bounds s = Ok b /\
    lower_fade_bound b = f_ceil (f_mul kLowerFadeTimeS (f_rnd (ps_rate_num s) (ps_rate_den s))) /\
    upper_fade_bound b = f_ceil (f_mul kUpperFadeTimeS (f_rnd (ps_rate_num s) (ps_rate_den s))) /\
    max_crossfade_ir_length b = f_ceil (f_mul kMaxCrossFadeIrTimeS (f_rnd (ps_rate_num s) (ps_rate_den s))) /\
    in_out_fade_length b = f_ceil (f_mul kInOutFadeTimeS (f_rnd (ps_rate_num s) (ps_rate_den s))) /\
    0 < lower_fade_bound b <= upper_fade_bound b /\ 0 < in_out_fade_length b <= upper_fade_bound b /\
    0 < max_crossfade_ir_length b < 2 ^ 31.
Proof.
  intros H1 H2 H3. unfold engine_bounds. set (r := f_rnd _ _).
  assert (Nr : 0 < f_num r) by (apply f_rnd_pos; auto). pose proof (f_den_pos r) as Dr.
  assert (Hr : f_le r (f_rnd 100000000 1)) by (apply f_rnd_mono; lia).
  assert (P : forall k, 0 < f_num k -> 0 < f_ceil (f_mul k r)).
  { intros k Hk. apply f_ceil_pos. unfold f_mul. pose proof (f_den_pos k). apply f_rnd_pos; nia. }
  assert (Q : forall k, 0 < f_num k -> f_le k kMaxCrossFadeIrTimeS -> f_ceil (f_mul k r) < 2 ^ 31).
  { intros k Hk Hle. apply Z.le_lt_trans with (f_ceil (f_mul kMaxCrossFadeIrTimeS (f_rnd 100000000 1))); [|vm_compute; reflexivity].
    apply f_ceil_mono, f_mul_mono; auto; [lia|vm_compute; congruence]. }
  pose proof (Q kLowerFadeTimeS ltac:(reflexivity) ltac:(vm_compute; congruence)) as Q1.
  pose proof (Q kUpperFadeTimeS ltac:(reflexivity) ltac:(vm_compute; congruence)) as Q2.
  pose proof (Q kMaxCrossFadeIrTimeS ltac:(reflexivity) ltac:(vm_compute; congruence)) as Q3.
  pose proof (Q kInOutFadeTimeS ltac:(reflexivity) ltac:(vm_compute; congruence)) as Q4.
  unfold to_int. rewrite !(proj2 (Z.ltb_lt _ _)) by assumption. cbn [bind].
  eexists. split; [reflexivity|]. cbn [lower_fade_bound upper_fade_bound max_crossfade_ir_length in_out_fade_length].
  do 4 (split; [reflexivity|]).
  repeat split; try (apply P; reflexivity); auto;
    apply f_mul_le_ceil; try lia; vm_compute; congruence.
Qed.

Lemma ceil_exact_int (k : f32) t n : f_num k = t * f_den k -> 0 < t -> 0 <= n -> n <= 2 ^ 24 -> t * n <= 2 ^ 24 ->
  f_ceil (f_mul k (f_rnd n 1)) = t * n.
Proof.
  intros Hk Ht Hn H1 H2. fold (f_of_Z n). unfold f_mul.
  pose proof (f_of_Z_exact n ltac:(lia)) as E. rewrite Hk, E. pose proof (f_den_pos k) as Dk. pose proof (f_den_pos (f_of_Z n)) as Dn.
  set (kd := f_den k) in *. set (nd := f_den (f_of_Z n)) in *. clearbody kd nd.
  destruct (Z.eq_dec n 0) as [->|Hn0].
  { rewrite !Z.mul_0_l, !Z.mul_0_r. reflexivity. }
  assert (HD : 0 < kd * nd) by nia.
  destruct (rnd_side (t * kd * (n * nd)) (kd * nd) (t * n) 1) with (k := t * n) as (S1 & S2 & _); try nia.
  apply ceil_spec. pose proof (f_den_pos (f_rnd (t * kd * (n * nd)) (kd * nd))).
  specialize (S1 ltac:(lia)). specialize (S2 ltac:(lia)). nia.
Qed.

(** the length wanted for a cross-fade to a response of [ir] samples *)
Definition wanted_length (ir : Z) : Z := f_ceil (f_mul kFadeRatio (f_of_Z ir)).

Lemma wanted_length_mono a b : a <= b -> wanted_length a <= wanted_length b.
Proof.
  intros. apply f_mul_le_ceil_r; [vm_compute; congruence|apply f_rnd_nonneg; lia|now apply f_of_Z_mono].
Qed.
Lemma wanted_length_close ir : 0 <= ir <= 2 ^ 24 ->
  14 * ir - 100 < 100 * wanted_length ir < 14 * ir + 200.
Proof.
  intros H. destruct k_ratio as [K1 K2].
  pose proof (ceil_close kFadeRatio 14 100 ir 1) as C. cbv zeta in C. unfold wanted_length, f_of_Z.
  specialize (C K1 ltac:(lia) ltac:(lia) ltac:(lia) ltac:(lia) K2 ltac:(lia)). lia.
Qed.

Lemma fade_of_ok b ir wanted :
  lower_fade_bound b <= upper_fade_bound b -> max_crossfade_ir_length b < 2 ^ 31 ->
  fade_of b ir wanted =
    Ok (match wanted with
        | kCrossfade => if max_crossfade_ir_length b <=? ir then (kInOut, in_out_fade_length b)
                        else (kCrossfade, Z.max (lower_fade_bound b) (Z.min (upper_fade_bound b) (wanted_length ir)))
        | kInOut => (kInOut, in_out_fade_length b)
        end).
Proof.
  intros H1 H2. unfold fade_of. destruct wanted; destruct (Z.leb_spec (max_crossfade_ir_length b) ir); try reflexivity.
  fold (wanted_length ir). unfold to_int. rewrite (proj2 (Z.ltb_lt _ _)); cbn [bind].
  - rewrite (proj2 (Z.leb_le _ _)) by auto. reflexivity.
  - apply Z.le_lt_trans with (wanted_length (2 ^ 31)); [apply wanted_length_mono; lia|vm_compute; reflexivity].
Qed.

(** * Single precision rounding: exactness facts *)
From Coq Require Import ZArith Bool Lia Psatz.
From Verif.Model Require Import Base Float32 Partitioning.
Local Open Scope Z_scope.

Lemma pow2_pos' e : 0 <= e -> 0 < 2 ^ e.
Proof. intros. now apply Z.pow_pos_nonneg. Qed.

Lemma scale_den_pos q e : 0 < q -> 0 < scale_den q e.
Proof.
  intros. unfold scale_den. destruct (Z.leb_spec 0 e); auto.
  pose proof (pow2_pos' e ltac:(lia)). nia.
Qed.
Lemma scale_num_pos p e : 0 < p -> 0 < scale_num p e.
Proof.
  intros. unfold scale_num. destruct (Z.leb_spec 0 e); auto.
  pose proof (pow2_pos' (- e) ltac:(lia)). nia.
Qed.

(** [scale_num p e * k <= scale_den q e * m] does not depend on how it is scaled *)
Lemma scale_cross p q e a b :
  0 <= a -> 0 <= b -> e = a - b ->
  scale_num p e * (q * 2 ^ a) = scale_den q e * (p * 2 ^ b).
Proof.
  intros Ha Hb ->. unfold scale_num, scale_den. destruct (Z.leb_spec 0 (a - b)).
  - replace (2 ^ a) with (2 ^ (a - b) * 2 ^ b) by (rewrite <- Z.pow_add_r by lia; f_equal; lia).
    ring.
  - replace (2 ^ b) with (2 ^ (- (a - b)) * 2 ^ a) by (rewrite <- Z.pow_add_r by lia; f_equal; lia).
    ring.
Qed.

Lemma cross_le x y u v : 0 < u -> 0 < v -> forall k m, x * u = y * v -> k * u = m * v -> k <= x -> m <= y.
Proof. intros. nia. Qed.

Lemma f_exponent_range p q : 0 < p -> 0 < q ->
  let e := f_exponent p q in
  scale_den q e * 2 ^ 23 <= scale_num p e < scale_den q e * 2 ^ 24.
Proof.
  intros Hp Hq. cbv zeta.
  destruct (Z.log2_spec p Hp) as [P1 P2]. destruct (Z.log2_spec q Hq) as [Q1 Q2].
  set (lp := Z.log2 p) in *. set (lq := Z.log2 q) in *.
  assert (0 <= lp) by apply Z.log2_nonneg. assert (0 <= lq) by apply Z.log2_nonneg.
  rewrite Z.pow_succ_r in P2, Q2 by auto.
  pose proof (pow2_pos' lp ltac:(auto)). pose proof (pow2_pos' lq ltac:(auto)).
  (* ratio bounds through exponents made non-negative *)
  assert (G : forall e, e = lp - lq - 23 \/ e = lp - lq - 24 ->
     exists u v, 0 < u /\ 0 < v /\ scale_num p e * u = scale_den q e * v /\
       u = q * 2 ^ (lp + 24 + (e - (lp - lq - 24))) /\ v = p * 2 ^ (lq + 48)).
  { intros e He. exists (q * 2 ^ (lp + 24 + (e - (lp - lq - 24)))), (p * 2 ^ (lq + 48)).
    pose proof (pow2_pos' (lp + 24 + (e - (lp - lq - 24))) ltac:(lia)).
    pose proof (pow2_pos' (lq + 48) ltac:(lia)).
    repeat split; try nia. apply scale_cross; lia. }
  unfold f_exponent. fold lp lq. set (e := lp - lq - 23).
  assert (Sd : forall e, 0 < scale_den q e) by (intros; now apply scale_den_pos).
  assert (Sn : forall e, 0 < scale_num p e) by (intros; now apply scale_num_pos).
  destruct (Z.leb_spec (scale_den q e * 2 ^ 23) (scale_num p e)) as [Hle|Hlt].
  - split; auto. destruct (G e ltac:(lia)) as (u & v & Hu & Hv & E & -> & ->).
    specialize (Sd e). specialize (Sn e).
    replace (lp + 24 + (e - (lp - lq - 24))) with (lp + 25) in * by lia.
    rewrite !Z.pow_add_r in * by lia.
    change (2 ^ 24) with 16777216 in *. change (2 ^ 25) with 33554432 in *.
    change (2 ^ 48) with 281474976710656 in *.
    set (X := scale_num p e) in *. set (Y := scale_den q e) in *.
    apply Z.nle_gt. intros C.
    assert (Y * 16777216 * (q * (2 ^ lp * 33554432)) <= X * (q * (2 ^ lp * 33554432))) by nia.
    rewrite E in H3.
    assert (16777216 * (q * (2 ^ lp * 33554432)) <= p * (2 ^ lq * 281474976710656)) by nia.
    assert (q * 2 ^ lp * 2 <= p * 2 ^ lq) by nia. nia.
  - destruct (G (e - 1) ltac:(lia)) as (u & v & Hu & Hv & E & -> & ->).
    destruct (G e ltac:(lia)) as (u' & v' & Hu' & Hv' & E' & -> & ->).
    pose proof (Sd e). pose proof (Sd (e - 1)) as HY. pose proof (Sn e). pose proof (Sn (e - 1)) as HX.
    replace (lp + 24 + (e - 1 - (lp - lq - 24))) with (lp + 24) in * by lia.
    replace (lp + 24 + (e - (lp - lq - 24))) with (lp + 25) in * by lia.
    rewrite !Z.pow_add_r in * by lia.
    change (2 ^ 24) with 16777216 in *. change (2 ^ 25) with 33554432 in *.
    change (2 ^ 48) with 281474976710656 in *. change (2 ^ 23) with 8388608 in *.
    set (X := scale_num p e) in *. set (Y := scale_den q e) in *.
    set (X' := scale_num p (e - 1)) in *. set (Y' := scale_den q (e - 1)) in *.
    assert (F1 : p * 2 ^ lq * 2 > q * 2 ^ lp) by nia.
    assert (F2 : p * 2 ^ lq < q * 2 ^ lp).
    { assert (X * (q * (2 ^ lp * 33554432)) < Y * 8388608 * (q * (2 ^ lp * 33554432))) by nia.
      rewrite E' in *.
      assert (p * (2 ^ lq * 281474976710656) < 8388608 * (q * (2 ^ lp * 33554432))) by nia.
      lia. }
    assert (W : 0 < q * 2 ^ lp) by nia.
    set (a := p * 2 ^ lq) in *. set (b := q * 2 ^ lp) in *.
    assert (E2 : X' * (b * 16777216) = Y' * (a * 281474976710656)) by (unfold a, b; nia).
    assert (E3 : X' * b = Y' * (a * 16777216)) by nia.
    clear - E3 F1 F2 W HX HY. split; nia.
Qed.

Lemma rhe_le p q z : 0 < q -> p <= z * q -> round_half_even p q <= z.
Proof.
  intros Hq H. unfold round_half_even.
  pose proof (Z.div_mod p q ltac:(lia)). pose proof (Z.mod_pos_bound p q Hq).
  destruct (Z.ltb_spec (2 * (p mod q)) q); [nia|].
  assert (p / q < z) by nia.
  destruct (q <? 2 * (p mod q)); [lia|]. destruct (Z.even (p / q)); lia.
Qed.
Lemma rhe_ge p q z : 0 < q -> z * q <= p -> z <= round_half_even p q.
Proof.
  intros Hq H. unfold round_half_even.
  pose proof (Z.div_mod p q ltac:(lia)). pose proof (Z.mod_pos_bound p q Hq).
  assert (z <= p / q) by (apply Z.div_le_lower_bound; lia).
  destruct (2 * (p mod q) <? q); [lia|].
  destruct (q <? 2 * (p mod q)); [lia|]. destruct (Z.even (p / q)); lia.
Qed.
(** more than half past [z] *)
Lemma rhe_gt p q z : 0 < q -> (2 * z + 1) * q < 2 * p -> z < round_half_even p q.
Proof.
  intros Hq H. unfold round_half_even.
  pose proof (Z.div_mod p q ltac:(lia)). pose proof (Z.mod_pos_bound p q Hq).
  assert (z <= p / q) by nia.
  destruct (Z.ltb_spec (2 * (p mod q)) q); [nia|].
  destruct (Z.ltb_spec q (2 * (p mod q))); [lia|].
  assert (2 * (p mod q) = q) by lia.
  assert (z < p / q) by nia. destruct (Z.even (p / q)); lia.
Qed.
(** less than half before [z] *)
Lemma rhe_lt p q z : 0 < q -> 2 * p < (2 * z - 1) * q -> round_half_even p q < z.
Proof.
  intros Hq H. unfold round_half_even.
  pose proof (Z.div_mod p q ltac:(lia)). pose proof (Z.mod_pos_bound p q Hq).
  assert (p / q <= z - 1) by nia.
  destruct (Z.ltb_spec (2 * (p mod q)) q); [lia|].
  destruct (Z.ltb_spec q (2 * (p mod q))).
  - assert (p / q < z - 1) by nia. lia.
  - assert (2 * (p mod q) = q) by lia.
    assert (p / q < z - 1) by nia. destruct (Z.even (p / q)); lia.
Qed.
Lemma rhe_exact p q z : 0 < q -> p = z * q -> round_half_even p q = z.
Proof. intros. apply Z.le_antisymm; [apply rhe_le|apply rhe_ge]; lia. Qed.

(** The rounded value lies on the same side of every integer up to 2^24. *)
Lemma f_den_pos f : 0 < f_den f.
Proof. unfold f_den. destruct (Z.leb_spec 0 (f_exp f)); [lia|]. apply pow2_pos'. lia. Qed.

Lemma f_rnd_spec p q : 0 < p -> 0 < q ->
  exists e M p' q', f_rnd p q = {| f_man := M; f_exp := e |} /\
    p' = scale_num p e /\ q' = scale_den q e /\ 0 < q' /\
    q' * 2 ^ 23 <= p' < q' * 2 ^ 24 /\ M = round_half_even p' q' /\ 2 ^ 23 <= M <= 2 ^ 24.
Proof.
  intros Hp Hq. unfold f_rnd. destruct (Z.leb_spec p 0); [lia|].
  pose proof (f_exponent_range p q Hp Hq) as R. cbv zeta in R.
  set (e := f_exponent p q) in *. exists e. eexists. exists (scale_num p e), (scale_den q e).
  pose proof (scale_den_pos q e Hq) as Hd.
  split; [reflexivity|]. repeat split; auto; try apply R.
  - apply rhe_ge; lia.
  - apply rhe_le; lia.
Qed.

(** Integers up to 2^24 are floats. *)
Lemma f_of_Z_exact n : 0 <= n <= 2 ^ 24 -> f_num (f_of_Z n) = n * f_den (f_of_Z n).
Proof.
  intros Hn. unfold f_of_Z. destruct (Z.eq_dec n 0) as [->|Hn0]; [reflexivity|].
  destruct (f_rnd_spec n 1) as (e & M & p' & q' & -> & -> & -> & Hq & Hr & HM & HMr); try lia.
  unfold f_num, f_den. cbn [f_exp f_man]. unfold scale_num, scale_den in *.
  change (2 ^ 24) with 16777216 in *. change (2 ^ 23) with 8388608 in *.
  destruct (Z.leb_spec 0 e).
  - assert (e <= 1).
    { apply Z.nlt_ge. intros C. assert (2 ^ 2 <= 2 ^ e) by (apply Z.pow_le_mono_r; lia).
      change (2 ^ 2) with 4 in *. nia. }
    assert (e = 0 \/ e = 1) as [-> | ->] by lia.
    + rewrite Z.mul_1_l, Z.pow_0_r in *. rewrite (rhe_exact n 1 n) in HM by lia. lia.
    + change (1 * 2 ^ 1) with 2 in *. assert (n = 16777216) by lia. subst n.
      rewrite (rhe_exact _ _ 8388608) in HM by lia. subst M. reflexivity.
  - rewrite HM. apply rhe_exact; lia.
Qed.

(** ceil and floor of a rounded quotient *)
Lemma ceil_spec f k : (k - 1) * f_den f < f_num f <= k * f_den f -> f_ceil f = k.
Proof.
  intros H. unfold f_ceil. pose proof (f_den_pos f) as Hd.
  set (d := f_den f) in *. set (x := f_num f) in *.
  assert (- x / d = - k); [|lia].
  symmetry. apply Z.div_unique with (r := - x + k * d); nia.
Qed.
Lemma floor_spec f k : k * f_den f <= f_num f < (k + 1) * f_den f -> f_floor f = k.
Proof.
  intros H. unfold f_floor. pose proof (f_den_pos f) as Hd.
  set (d := f_den f) in *. set (x := f_num f) in *.
  symmetry. apply Z.div_unique with (r := x - k * d); nia.
Qed.

Lemma rnd_side p q n P : 0 < p -> 0 < q -> 0 < n <= 2 ^ 24 -> 0 < P -> p * P = n * q ->
  forall k,
    (n <= k * P -> f_num (f_rnd p q) <= k * f_den (f_rnd p q)) /\
    (k * P <= n -> k * f_den (f_rnd p q) <= f_num (f_rnd p q)) /\
    (k * P < n -> k * f_den (f_rnd p q) < f_num (f_rnd p q)) /\
    (n < k * P -> f_num (f_rnd p q) < k * f_den (f_rnd p q)).
Proof.
  intros Hp Hq Hn HP E k.
  destruct (f_rnd_spec p q) as (e & M & p' & q' & -> & -> & -> & Hq' & Hr & HM & HMr); try lia.
  unfold f_num, f_den. cbn [f_exp f_man]. unfold scale_num, scale_den in *.
  change (2 ^ 24) with 16777216 in *. change (2 ^ 23) with 8388608 in *.
  destruct (Z.leb_spec 0 e) as [He|He].
  - pose proof (pow2_pos' e He) as Hs. set (s := 2 ^ e) in *.
    destruct (Z.eq_dec e 0) as [->|He0].
    + change s with 1 in *. rewrite !Z.mul_1_r in *. clear He Hs s Hq'.
      (* P = 1 because n / P >= 2^23 ... or the quotient is rounded to an integer *)
      assert (H1 : q * 8388608 <= p) by lia. assert (H2 : P * 8388608 <= n) by nia.
      assert (P = 1 \/ P = 2) as HPc by nia.
      rewrite HM.
      destruct HPc as [-> | ->].
      * assert (p = n * q) by lia. rewrite (rhe_exact p q n) by lia. repeat split; lia.
      * assert (n = 16777216) by lia. subst n. assert (p = 8388608 * q) by lia.
        rewrite (rhe_exact p q 8388608) by lia. repeat split; lia.
    + assert (e = 1).
      { assert (e < 2); [|lia]. apply Z.nle_gt. intros C.
        assert (2 ^ 2 <= 2 ^ e) by (apply Z.pow_le_mono_r; lia). fold s in H. change (2 ^ 2) with 4 in H.
        assert (q * 33554432 <= p) by nia. nia. }
      subst e. change s with 2 in *.
      assert (H1 : q * 16777216 <= p) by nia. assert (H2 : P * 16777216 <= n) by nia.
      assert (P = 1) as -> by nia. assert (n = 16777216) as -> by lia.
      rewrite (rhe_exact p (q * 2) 8388608) in HM by lia. subst M. repeat split; lia.
  - pose proof (pow2_pos' (- e) ltac:(lia)) as Hs. set (s := 2 ^ (- e)) in *.
    assert (HsP : 8388608 * P <= n * s).
    { assert (q * 8388608 * P <= n * q * s) by nia. nia. }
    assert (K1 : n <= k * P -> p <= k * q) by (clear - E Hq HP; nia).
    assert (K2 : k * P <= n -> k * q <= p) by (clear - E Hq HP; nia).
    assert (K3 : n * s = 8388608 * P -> p * s = 8388608 * q).
    { intros Ex. assert (p * P * s = 8388608 * q * P) by (rewrite E; nia). nia. }
    rewrite HM. clear HM HMr Hr. repeat split.
    + intros H. specialize (K1 H). apply rhe_le; auto. nia.
    + intros H. specialize (K2 H). apply rhe_ge; auto. nia.
    + intros H. destruct (Z.eq_dec (n * s) (8388608 * P)) as [Ex|Nx].
      * rewrite (rhe_exact (p * s) q 8388608) by auto. clear - Ex H HP Hs. nia.
      * apply rhe_gt; auto.
        assert (G1 : 2 * s > P) by (clear - Nx HsP Hn HP Hs; nia).
        assert (G2 : (p - k * q) * P >= q) by (clear - E H Hq HP; nia).
        assert (G3 : q < 2 * ((p - k * q) * s)) by (clear - G1 G2 HP Hs Hq; nia). lia.
    + intros H. destruct (Z.eq_dec (n * s) (8388608 * P)) as [Ex|Nx].
      * rewrite (rhe_exact (p * s) q 8388608) by auto. clear - Ex H HP Hs. nia.
      * apply rhe_lt; auto.
        assert (G1 : 2 * s > P) by (clear - Nx HsP Hn HP Hs; nia).
        assert (G2 : (k * q - p) * P >= q) by (clear - E H Hq HP; nia).
        assert (G3 : q < 2 * ((k * q - p) * s)) by (clear - G1 G2 HP Hs Hq; nia). lia.
Qed.

Definition zceil (n P : Z) : Z := - ((- n) / P).
Lemma zceil_spec n P : 0 < P -> (zceil n P - 1) * P < n <= zceil n P * P.
Proof.
  intros. unfold zceil. pose proof (Z.div_mod (- n) P ltac:(lia)).
  pose proof (Z.mod_pos_bound (- n) P H). nia.
Qed.

(** division of two integers stored in floats *)
Lemma div_ratio n P : 0 < n <= 2 ^ 24 -> 0 < P <= 2 ^ 24 ->
  exists p q, f_div (f_of_Z n) (f_of_Z P) = f_rnd p q /\ 0 < p /\ 0 < q /\ p * P = n * q.
Proof.
  intros Hn HP. unfold f_div.
  pose proof (f_of_Z_exact n ltac:(lia)) as E1. pose proof (f_of_Z_exact P ltac:(lia)) as E2.
  pose proof (f_den_pos (f_of_Z n)) as D1. pose proof (f_den_pos (f_of_Z P)) as D2.
  set (a := f_of_Z n) in *. set (b := f_of_Z P) in *. clearbody a b.
  do 2 eexists. split; [reflexivity|]. rewrite E1, E2. 
  set (x := f_den a) in *. set (y := f_den b) in *. clearbody x y. clear E1 E2.
  assert (0 < n * x) by nia. assert (0 < P * y) by nia.
  split; [nia|]. split; [nia|]. ring.
Qed.

Lemma f_div_floor n P : 0 <= n <= 2 ^ 24 -> 0 < P <= 2 ^ 24 ->
  f_floor (f_div (f_of_Z n) (f_of_Z P)) = n / P.
Proof.
  intros Hn HP. destruct (Z.eq_dec n 0) as [->|Hn0].
  { rewrite Z.div_0_l by lia. reflexivity. }
  destruct (div_ratio n P) as (p & q & -> & Hp & Hq & E); try lia.
  pose proof (Z.div_mod n P ltac:(lia)). pose proof (Z.mod_pos_bound n P ltac:(lia)).
  apply floor_spec.
  destruct (rnd_side p q n P Hp Hq ltac:(lia) ltac:(lia) E (n / P)) as (_ & H1 & _).
  destruct (rnd_side p q n P Hp Hq ltac:(lia) ltac:(lia) E (n / P + 1)) as (_ & _ & _ & H2).
  split; [apply H1|apply H2]; nia.
Qed.

Lemma f_div_ceil_small n P : 0 <= n <= 2 ^ 24 -> 0 < P <= 2 ^ 24 ->
  f_ceil (f_div (f_of_Z n) (f_of_Z P)) = zceil n P.
Proof.
  intros Hn HP. destruct (Z.eq_dec n 0) as [->|Hn0].
  { unfold zceil. rewrite Z.div_0_l by lia. reflexivity. }
  destruct (div_ratio n P) as (p & q & -> & Hp & Hq & E); try lia.
  pose proof (zceil_spec n P ltac:(lia)) as Hz. set (k := zceil n P) in *.
  apply ceil_spec.
  destruct (rnd_side p q n P Hp Hq ltac:(lia) ltac:(lia) E k) as (H1 & _).
  destruct (rnd_side p q n P Hp Hq ltac:(lia) ltac:(lia) E (k - 1)) as (_ & _ & H2 & _).
  split; [apply H2|apply H1]; lia.
Qed.

(** partitions longer than 2^24 samples *)
Lemma f_of_Z_large P : 2 ^ 24 <= P -> 2 ^ 24 * f_den (f_of_Z P) <= f_num (f_of_Z P).
Proof.
  intros H. unfold f_of_Z.
  destruct (f_rnd_spec P 1) as (e & M & p' & q' & -> & -> & -> & Hq & Hr & HM & HMr); try lia.
  unfold f_num, f_den. cbn [f_exp f_man]. unfold scale_num, scale_den in *.
  change (2 ^ 24) with 16777216 in *. change (2 ^ 23) with 8388608 in *.
  destruct (Z.leb_spec 0 e).
  - pose proof (pow2_pos' e H0). set (s := 2 ^ e) in *.
    destruct (Z.eq_dec e 0) as [->|]; [change s with 1 in *; lia|].
    assert (2 ^ 1 <= 2 ^ e) by (apply Z.pow_le_mono_r; lia). fold s in H2. change (2 ^ 1) with 2 in H2. nia.
  - pose proof (pow2_pos' (- e) ltac:(lia)). nia.
Qed.

Lemma f_div_ceil n P : 0 <= n <= 2 ^ 24 -> 0 < P -> f_ceil (f_div (f_of_Z n) (f_of_Z P)) = zceil n P.
Proof.
  intros Hn HP. destruct (Z.le_gt_cases P (2 ^ 24)); [apply f_div_ceil_small; lia|].
  destruct (Z.eq_dec n 0) as [->|Hn0].
  { unfold zceil. rewrite Z.div_0_l by lia. reflexivity. }
  assert (zceil n P = 1) as ->.
  { pose proof (zceil_spec n P HP). nia. }
  pose proof (f_of_Z_large P ltac:(lia)) as L. pose proof (f_of_Z_exact n ltac:(lia)) as E1.
  pose proof (f_den_pos (f_of_Z n)) as D1. pose proof (f_den_pos (f_of_Z P)) as D2.
  unfold f_div. set (a := f_of_Z n) in *. set (b := f_of_Z P) in *. clearbody a b.
  assert (0 < f_num b) by lia. assert (0 < f_num a) by nia.
  assert (Hle : f_num a * f_den b <= f_den a * f_num b) by nia.
  assert (0 < f_num a * f_den b) by nia. assert (0 < f_den a * f_num b) by nia.
  set (p := f_num a * f_den b) in *. set (q := f_den a * f_num b) in *. clearbody p q.
  apply ceil_spec.
  destruct (f_rnd_spec p q) as (e & M & p' & q' & -> & -> & -> & Hq & Hr & HM & HMr); try lia.
  unfold f_num, f_den. cbn [f_exp f_man]. unfold scale_num, scale_den in *.
  change (2 ^ 24) with 16777216 in *. change (2 ^ 23) with 8388608 in *.
  destruct (Z.leb_spec 0 e) as [He|He].
  - pose proof (pow2_pos' e He). nia.
  - split; [lia|]. rewrite HM. apply rhe_le; auto. pose proof (pow2_pos' (- e) ltac:(lia)). nia.
Qed.

Lemma num_partitions_exact P n : 0 <= n <= 2 ^ 24 -> 0 < P ->
  GetNumPartitionsRequiredForSegment P n = Ok (zceil n P).
Proof.
  intros. unfold GetNumPartitionsRequiredForSegment. destruct (Z.leb_spec P 0); [lia|].
  now rewrite f_div_ceil.
Qed.

(** * Single precision rounding: monotony and accuracy *)
From Coq Require Import ZArith Bool Lia Psatz.
From Verif.Model Require Import Base Float32 Partitioning.
From Verif.Proofs Require Import FloatProof.
Local Open Scope Z_scope.

Lemma rhe_char p q : 0 < q -> let d := round_half_even p q in
  2 * p <= (2 * d + 1) * q /\ (2 * d - 1) * q <= 2 * p /\
  (2 * p = (2 * d + 1) * q -> Z.even d = true) /\ ((2 * d - 1) * q = 2 * p -> Z.even d = true).
Proof.
  intros Hq. cbv zeta. unfold round_half_even.
  pose proof (Z.div_mod p q ltac:(lia)) as E. pose proof (Z.mod_pos_bound p q Hq) as B.
  set (d := p / q) in *. set (r := p mod q) in *. clearbody d r.
  destruct (Z.ltb_spec (2 * r) q); [repeat split; nia|].
  destruct (Z.ltb_spec q (2 * r)); [repeat split; nia|].
  destruct (Z.even d) eqn:Ev.
  - repeat split; try nia; auto.
  - repeat split; try nia; rewrite Z.even_add, Ev; reflexivity.
Qed.

Lemma rhe_mono p1 q1 p2 q2 : 0 < q1 -> 0 < q2 -> p1 * q2 <= p2 * q1 ->
  round_half_even p1 q1 <= round_half_even p2 q2.
Proof.
  intros H1 H2 H. destruct (rhe_char p1 q1 H1) as (A1 & A2 & A3 & A4).
  destruct (rhe_char p2 q2 H2) as (B1 & B2 & B3 & B4).
  set (d1 := round_half_even p1 q1) in *. set (d2 := round_half_even p2 q2) in *. clearbody d1 d2.
  apply Z.nlt_ge. intros C.
  assert (G1 : (2 * d1 - 1) * (q1 * q2) <= 2 * (p1 * q2)) by nia.
  assert (G2 : 2 * (p2 * q1) <= (2 * d2 + 1) * (q1 * q2)) by nia.
  assert (HQ : 0 < q1 * q2) by nia.
  assert (d1 = d2 + 1) by nia. subst d1.
  assert (E1 : 2 * (p1 * q2) = (2 * d2 + 1) * (q1 * q2)) by nia.
  assert (E2 : 2 * (p2 * q1) = (2 * d2 + 1) * (q1 * q2)) by nia.
  assert (Z.even (d2 + 1) = true) by (apply A4; nia).
  assert (Z.even d2 = true) by (apply B3; nia).
  rewrite Z.even_add, H3 in H0. discriminate.
Qed.

Lemma f_num_nonneg f : 0 <= f_man f -> 0 <= f_num f.
Proof.
  intros. unfold f_num. destruct (Z.leb_spec 0 (f_exp f)); auto.
  pose proof (pow2_pos' (f_exp f) ltac:(lia)). nia.
Qed.
Lemma f_rnd_nonneg p q : 0 < q -> 0 <= f_num (f_rnd p q).
Proof.
  intros Hq. destruct (Z.le_gt_cases p 0).
  - unfold f_rnd. destruct (Z.leb_spec p 0); [reflexivity|lia].
  - destruct (f_rnd_spec p q) as (e & M & p' & q' & -> & _ & _ & _ & _ & _ & HM); try lia.
    apply f_num_nonneg. cbn [f_man]. lia.
Qed.
Lemma f_rnd_pos p q : 0 < p -> 0 < q -> 0 < f_num (f_rnd p q).
Proof.
  intros Hp Hq. destruct (f_rnd_spec p q) as (e & M & p' & q' & -> & _ & _ & _ & _ & _ & HM); try lia.
  unfold f_num. cbn [f_man f_exp]. destruct (Z.leb_spec 0 e); [|lia].
  pose proof (pow2_pos' e ltac:(lia)). nia.
Qed.

Lemma f_num_scaled M e K : 0 <= e + K -> 0 <= K ->
  f_num {| f_man := M; f_exp := e |} * 2 ^ K = M * 2 ^ (e + K) * f_den {| f_man := M; f_exp := e |}.
Proof.
  intros H HK. unfold f_num, f_den. cbn [f_man f_exp]. destruct (Z.leb_spec 0 e).
  - rewrite Z.pow_add_r by lia. ring.
  - replace (2 ^ K) with (2 ^ (e + K) * 2 ^ (- e)) by (rewrite <- Z.pow_add_r by lia; f_equal; lia). ring.
Qed.

(** rounding is monotone: if p1/q1 <= p2/q2 then f_rnd p1 q1 <= f_rnd p2 q2 *)
Lemma f_rnd_mono p1 q1 p2 q2 : 0 < q1 -> 0 < q2 -> p1 * q2 <= p2 * q1 ->
  f_num (f_rnd p1 q1) * f_den (f_rnd p2 q2) <= f_num (f_rnd p2 q2) * f_den (f_rnd p1 q1).
Proof.
  intros H1 H2 H.
  destruct (Z.le_gt_cases p1 0) as [Hp|Hp1].
  { pose proof (f_rnd_nonneg p2 q2 H2). pose proof (f_den_pos (f_rnd p1 q1)). unfold f_rnd at 1.
    destruct (Z.leb_spec p1 0); [|lia]. unfold f_num at 1. cbn. nia. }
  assert (Hp2 : 0 < p2) by nia.
  destruct (f_rnd_spec p1 q1) as (e1 & M1 & p1' & q1' & -> & -> & -> & Hq1 & R1 & EM1 & HM1); auto.
  destruct (f_rnd_spec p2 q2) as (e2 & M2 & p2' & q2' & -> & -> & -> & Hq2 & R2 & EM2 & HM2); auto.
  set (K := Z.abs e1 + Z.abs e2).
  assert (HK : 0 <= K /\ 0 <= e1 + K /\ 0 <= e2 + K) by (unfold K; lia). destruct HK as (HK & HK1 & HK2).
  pose proof (scale_cross p1 q1 e1 (e1 + K) K HK1 HK ltac:(lia)) as C1.
  pose proof (scale_cross p2 q2 e2 (e2 + K) K HK2 HK ltac:(lia)) as C2.
  pose proof (pow2_pos' K HK) as PK. pose proof (pow2_pos' _ HK1) as PK1. pose proof (pow2_pos' _ HK2) as PK2.
  set (a := scale_num p1 e1) in *. set (b := scale_den q1 e1) in *.
  set (c := scale_num p2 e2) in *. set (d := scale_den q2 e2) in *.
  assert (B1 : q1 * 2 ^ (e1 + K) * 2 ^ 23 <= p1 * 2 ^ K < q1 * 2 ^ (e1 + K) * 2 ^ 24).
  { clear - C1 R1 Hq1 H1 PK1. assert (0 < q1 * 2 ^ (e1 + K)) by nia. split; nia. }
  assert (B2 : q2 * 2 ^ (e2 + K) * 2 ^ 23 <= p2 * 2 ^ K < q2 * 2 ^ (e2 + K) * 2 ^ 24).
  { clear - C2 R2 Hq2 H2 PK2. assert (0 < q2 * 2 ^ (e2 + K)) by nia. split; nia. }
  assert (HV : M1 * 2 ^ (e1 + K) <= M2 * 2 ^ (e2 + K)).
  { destruct (Z.lt_trichotomy e1 e2) as [Hlt|[Heq|Hgt]].
    - assert (2 ^ (e1 + K) * 2 <= 2 ^ (e2 + K)).
      { replace (2 ^ (e1 + K) * 2) with (2 ^ (e1 + K + 1)) by (rewrite Z.pow_add_r by lia; lia).
        apply Z.pow_le_mono_r; lia. }
      change (2 ^ 24) with (2 * 2 ^ 23) in HM1. assert (0 < 2 ^ 23) by lia. nia.
    - subst e2. apply Z.mul_le_mono_nonneg_r; [lia|]. rewrite EM1, EM2. apply rhe_mono; auto.
      assert (G : a * d * (q1 * q2 * 2 ^ (e1 + K)) <= c * b * (q1 * q2 * 2 ^ (e1 + K))).
      { replace (a * d * (q1 * q2 * 2 ^ (e1 + K))) with (a * (q1 * 2 ^ (e1 + K)) * (d * q2)) by ring.
        replace (c * b * (q1 * q2 * 2 ^ (e1 + K))) with (c * (q2 * 2 ^ (e1 + K)) * (b * q1)) by ring.
        rewrite C1, C2.
        replace (b * (p1 * 2 ^ K) * (d * q2)) with (b * d * 2 ^ K * (p1 * q2)) by ring.
        replace (d * (p2 * 2 ^ K) * (b * q1)) with (b * d * 2 ^ K * (p2 * q1)) by ring.
        apply Z.mul_le_mono_nonneg_l; auto. assert (0 < b * d) by nia. nia. }
      assert (HQ : 0 < q1 * q2 * 2 ^ (e1 + K)) by (assert (0 < q1 * q2) by nia; nia).
      exact (proj2 (Z.mul_le_mono_pos_r _ _ _ HQ) G).
    - exfalso.
      assert (2 ^ (e2 + K) * 2 <= 2 ^ (e1 + K)).
      { replace (2 ^ (e2 + K) * 2) with (2 ^ (e2 + K + 1)) by (rewrite Z.pow_add_r by lia; lia).
        apply Z.pow_le_mono_r; lia. }
      destruct B1 as [B1 _], B2 as [_ B2].
      assert (X1 : q1 * 2 ^ (e1 + K) * 2 ^ 23 * q2 <= p1 * 2 ^ K * q2) by nia.
      assert (X2 : p2 * 2 ^ K * q1 < q2 * 2 ^ (e2 + K) * 2 ^ 24 * q1) by nia.
      assert (X3 : q2 * 2 ^ (e2 + K) * 2 ^ 24 * q1 <= q1 * 2 ^ (e1 + K) * 2 ^ 23 * q2).
      { change (2 ^ 24) with (2 * 2 ^ 23).
        replace (q2 * 2 ^ (e2 + K) * (2 * 2 ^ 23) * q1) with (q1 * q2 * 2 ^ 23 * (2 ^ (e2 + K) * 2)) by ring.
        replace (q1 * 2 ^ (e1 + K) * 2 ^ 23 * q2) with (q1 * q2 * 2 ^ 23 * 2 ^ (e1 + K)) by ring.
        apply Z.mul_le_mono_nonneg_l; auto. assert (0 < q1 * q2) by nia. lia. }
      assert (X4 : p1 * 2 ^ K * q2 <= p2 * 2 ^ K * q1).
      { replace (p1 * 2 ^ K * q2) with (2 ^ K * (p1 * q2)) by ring.
        replace (p2 * 2 ^ K * q1) with (2 ^ K * (p2 * q1)) by ring. nia. }
      lia. }
  pose proof (f_num_scaled M1 e1 K HK1 HK) as N1. pose proof (f_num_scaled M2 e2 K HK2 HK) as N2.
  pose proof (f_den_pos {| f_man := M1; f_exp := e1 |}) as D1.
  pose proof (f_den_pos {| f_man := M2; f_exp := e2 |}) as D2.
  set (n1 := f_num {| f_man := M1; f_exp := e1 |}) in *. set (n2 := f_num {| f_man := M2; f_exp := e2 |}) in *.
  set (d1 := f_den {| f_man := M1; f_exp := e1 |}) in *. set (d2 := f_den {| f_man := M2; f_exp := e2 |}) in *.
  clearbody n1 n2 d1 d2.
  assert (G : n1 * d2 * 2 ^ K <= n2 * d1 * 2 ^ K).
  { replace (n1 * d2 * 2 ^ K) with (n1 * 2 ^ K * d2) by ring. replace (n2 * d1 * 2 ^ K) with (n2 * 2 ^ K * d1) by ring.
    rewrite N1, N2. replace (M1 * 2 ^ (e1 + K) * d1 * d2) with (M1 * 2 ^ (e1 + K) * (d1 * d2)) by ring.
    replace (M2 * 2 ^ (e2 + K) * d2 * d1) with (M2 * 2 ^ (e2 + K) * (d1 * d2)) by ring.
    apply Z.mul_le_mono_nonneg_r; auto. nia. }
  exact (proj2 (Z.mul_le_mono_pos_r _ _ _ PK) G).
Qed.

Definition f_le (a b : f32) : Prop := f_num a * f_den b <= f_num b * f_den a.

Lemma f_ceil_mono a b : f_le a b -> f_ceil a <= f_ceil b.
Proof.
  unfold f_le, f_ceil. intros H. pose proof (f_den_pos a) as Da. pose proof (f_den_pos b) as Db.
  set (x := f_num a) in *. set (y := f_num b) in *. set (u := f_den a) in *. set (v := f_den b) in *. clearbody x y u v.
  assert (- y / v <= - x / u); [|lia].
  apply Z.div_le_lower_bound; auto.
  pose proof (Z.mul_div_le (- y) v Db). nia.
Qed.
Lemma f_mul_mono a b c d : 0 <= f_num a -> 0 <= f_num d -> f_le a b -> f_le c d -> f_le (f_mul a c) (f_mul b d).
Proof.
  unfold f_le, f_mul. intros Ha Hd H1 H2. pose proof (f_den_pos a). pose proof (f_den_pos b). pose proof (f_den_pos c). pose proof (f_den_pos d).
  apply f_rnd_mono; [nia|nia|].
  set (x := f_num a) in *. set (y := f_num b) in *. set (z := f_num c) in *. set (t := f_num d) in *.
  set (da := f_den a) in *. set (db := f_den b) in *. set (dc := f_den c) in *. set (dd := f_den d) in *.
  replace (x * z * (db * dd)) with ((x * db) * (z * dd)) by ring.
  replace (y * t * (da * dc)) with ((y * da) * (t * dc)) by ring.
  assert (0 <= x * db) by nia. assert (0 <= t * dc) by nia. 
  transitivity (x * db * (t * dc)); nia.
Qed.
Lemma f_of_Z_mono a b : a <= b -> f_le (f_of_Z a) (f_of_Z b).
Proof. intros. apply f_rnd_mono; lia. Qed.

(** the relative error of a rounding is at most 2^-24 *)
Lemma f_rnd_error p q : 0 <= p -> 0 < q ->
  Z.abs (f_num (f_rnd p q) * q - p * f_den (f_rnd p q)) * 2 ^ 24 <= p * f_den (f_rnd p q).
Proof.
  intros Hp Hq. destruct (Z.eq_dec p 0) as [->|Hp0]; [reflexivity|].
  destruct (f_rnd_spec p q) as (e & M & p' & q' & -> & -> & -> & Hd & R & EM & HM); try lia.
  set (K := Z.abs e). assert (HK : 0 <= K /\ 0 <= e + K) by (unfold K; lia). destruct HK as (HK & HK1).
  pose proof (scale_cross p q e (e + K) K HK1 HK ltac:(lia)) as C1.
  pose proof (pow2_pos' K HK) as PK. pose proof (pow2_pos' _ HK1) as PK1.
  destruct (rhe_char (scale_num p e) (scale_den q e) Hd) as (A1 & A2 & _). rewrite <- EM in A1, A2.
  pose proof (f_num_scaled M e K HK1 HK) as N1. pose proof (f_den_pos {| f_man := M; f_exp := e |}) as D1.
  set (n1 := f_num {| f_man := M; f_exp := e |}) in *. set (d1 := f_den {| f_man := M; f_exp := e |}) in *.
  set (a := scale_num p e) in *. set (b := scale_den q e) in *. set (X := q * 2 ^ (e + K)) in *. set (P := p * 2 ^ K) in *.
  assert (HX : 0 < X) by (unfold X; nia).
  assert (B : Z.abs (M * X - P) * 2 <= X).
  { assert (Z.abs (M * b - a) * 2 <= b) by lia.
    assert (Z.abs (M * X - P) * b = Z.abs (M * b - a) * X).
    { transitivity (Z.abs ((M * X - P) * b)); [rewrite Z.abs_mul, (Z.abs_eq b); lia|].
      transitivity (Z.abs ((M * b - a) * X)); [f_equal; nia|rewrite Z.abs_mul, (Z.abs_eq X); lia]. }
    nia. }
  assert (B2 : X * 2 ^ 23 <= P) by nia.
  assert (G : Z.abs (n1 * q - p * d1) * 2 ^ K = Z.abs (M * X - P) * d1).
  { transitivity (Z.abs ((n1 * q - p * d1) * 2 ^ K)); [rewrite Z.abs_mul, (Z.abs_eq (2 ^ K)); lia|].
    transitivity (Z.abs ((M * X - P) * d1)); [f_equal|rewrite Z.abs_mul, (Z.abs_eq d1); lia].
    unfold X, P.
    replace ((n1 * q - p * d1) * 2 ^ K) with (n1 * 2 ^ K * q - p * d1 * 2 ^ K) by ring. rewrite N1. ring. }
  assert (G2 : Z.abs (n1 * q - p * d1) * 2 ^ 24 * 2 ^ K <= p * d1 * 2 ^ K).
  { replace (Z.abs (n1 * q - p * d1) * 2 ^ 24 * 2 ^ K) with (Z.abs (M * X - P) * 2 * 2 ^ 23 * d1) by (change (2 ^ 24) with (2 * 2 ^ 23); rewrite <- (Z.mul_assoc _ 2), <- (Z.mul_comm d1); nia).
    replace (p * d1 * 2 ^ K) with (P * d1) by (unfold P; ring).
    apply Z.mul_le_mono_nonneg_r; [lia|]. nia. }
  exact (proj2 (Z.mul_le_mono_pos_r _ _ _ PK) G2).
Qed.

(** * Fades in single precision *)
From Coq Require Import Reals Lra Lia ZArith.
From Flocq Require Import Core Relative.
From Verif.Model Require Import Base Arith ArithSingle Juce SmoothedValue.
From Verif.Spec Require Import Rounded Precision.
From Verif.Proofs Require Import Lists Blocks SmoothProof.
Open Scope R_scope.

Definition tiny : R := bpow radix2 (-150).
Lemma u24_bpow : u24 = bpow radix2 (-24).
Proof. unfold u24. cbn. lra. Qed.
Lemma tiny_pos : 0 < tiny. Proof. apply bpow_gt_0. Qed.
Lemma tiny_small : tiny <= u24 * u24.
Proof. rewrite u24_bpow, <- bpow_plus. apply bpow_le. lia. Qed.

#[local] Instance prec24 : Prec_gt_0 24. Proof. unfold Prec_gt_0. lia. Qed.
#[local] Instance vexp : Valid_exp (FLT_exp (-149) 24) := FLT_exp_valid (-149) 24.

(** ** rounding *)
Lemma single_eps x : exists e t, Rabs e <= u24 /\ Rabs t <= tiny /\ single x = x * (1 + e) + t.
Proof.
  destruct (error_N_FLT radix2 (-149) 24 ltac:(lia) (fun z => negb (Z.even z)) x) as (e & t & He & Ht & _ & E).
  exists e, t. split; [|split; [|exact E]].
  - rewrite u24_bpow. replace (bpow radix2 (-24)) with (/2 * bpow radix2 (-24 + 1)); auto.
    cbn. lra.
  - unfold tiny. replace (bpow radix2 (-150)) with (/2 * bpow radix2 (-149)); auto.
    replace (-150)%Z with (-1 + -149)%Z by lia. rewrite bpow_plus. cbn. lra.
Qed.
Lemma single_err x : Rabs (single x - x) <= Rabs x * u24 + tiny.
Proof.
  destruct (single_eps x) as (e & t & He & Ht & ->). replace (x * (1 + e) + t - x) with (x * e + t) by ring.
  eapply Rle_trans; [apply Rabs_triang|]. rewrite Rabs_mult. pose proof (Rabs_pos x).
  assert (Rabs x * Rabs e <= Rabs x * u24) by (apply Rmult_le_compat_l; auto). lra.
Qed.
(** below 2 the error is at most 2^-24 *)
Lemma single_err2 x : Rabs x < 2 -> Rabs (single x - x) <= u24.
Proof.
  intros H. unfold single. destruct (Req_dec x 0) as [->|Hx].
  { rewrite round_0 by apply valid_rnd_N. rewrite Rminus_0_r, Rabs_R0. unfold u24. lra. }
  eapply Rle_trans; [apply error_le_half_ulp; apply vexp|]. rewrite u24_bpow.
  assert (U : ulp radix2 (FLT_exp (-149) 24) x <= bpow radix2 (-23)).
  { rewrite ulp_neq_0 by auto. apply bpow_le. unfold cexp, FLT_exp.
    assert (M : (mag radix2 x <= 1)%Z) by (apply mag_le_bpow; auto; cbn; lra). lia. }
  replace (bpow radix2 (-24)) with (/2 * bpow radix2 (-23)); [|cbn; lra].
  apply Rmult_le_compat_l; lra.
Qed.
Lemma single_le x y : x <= y -> single x <= single y.
Proof. apply round_le; [apply vexp|apply valid_rnd_N]. Qed.
Lemma single_id x : generic_format radix2 (FLT_exp (-149) 24) x -> single x = x.
Proof. apply round_generic, valid_rnd_N. Qed.
Lemma single_single x : single (single x) = single x.
Proof. apply single_id, generic_format_round; [apply vexp|apply valid_rnd_N]. Qed.
Lemma single_opp x : single (- x) = - single x.
Proof. apply round_NE_opp. Qed.
Lemma format_dyadic m e : (Z.abs m < 2 ^ 24)%Z -> (-149 <= e)%Z -> generic_format radix2 (FLT_exp (-149) 24) (IZR m * bpow radix2 e).
Proof. intros Hm He. apply generic_format_FLT. exists (Float radix2 m e); auto. Qed.
Lemma single_0 : single 0 = 0.
Proof. apply round_0, valid_rnd_N. Qed.
Lemma single_1 : single 1 = 1.
Proof. apply single_id. replace 1 with (IZR 1 * bpow radix2 0) by (cbn; lra). apply format_dyadic; lia. Qed.

(** ** the levels *)
Fixpoint up (s : R) (k : nat) : R := match k with O => 0 | S k' => single (up s k' + s) end.
Fixpoint down (s : R) (k : nat) : R := match k with O => 1 | S k' => single (down s k' - s) end.
Definition step (n : nat) : R := single (/ INR n).

Lemma gain_up {pow} (v : smooth (SingleWith pow)) n : sm_target v = false -> (0 < n)%Z -> forall i,
  gain (sm_set_target true (sm_reset n v)) i = if (S i <? Z.to_nat n)%nat then up (step (Z.to_nat n)) (S i) else 1.
Proof.
  intros HT Hn. 
  assert (G : forall i (v : smooth (SingleWith pow)) c s, sm_count v = c -> sm_current v = up s (Z.to_nat n - c) -> sm_step v = s -> sm_target v = true -> (c <= Z.to_nat n)%nat ->
    gain v i = if (S i <? c)%nat then up s (Z.to_nat n - c + S i) else 1).
  { clear v HT. induction i as [|i IH]; intros v c s Hc Hv Hs Ht Hle.
    - rewrite gain_0. unfold sm_next. rewrite Hc. destruct c as [|[|c]]; cbn [snd]; try (rewrite Ht; reflexivity).
      cbn [Nat.ltb Nat.leb]. rewrite Hv, Hs, Nat.add_1_r. reflexivity.
    - rewrite gain_S. destruct c as [|[|c]].
      + rewrite (IH _ O s); rewrite ?sm_next_count, ?sm_next_target, ?Hc; auto; try lia; unfold sm_next; rewrite Hc; auto.
      + destruct (Nat.ltb_spec (S (S i)) 1); [lia|]. rewrite gain_done; [now rewrite sm_next_target, Ht|]. rewrite sm_next_count, Hc. lia.
      + rewrite (IH _ (S c) s); rewrite ?sm_next_target; auto; try lia.
        * replace (Z.to_nat n - S c + S i)%nat with (Z.to_nat n - S (S c) + S (S i))%nat by lia.
          destruct (Nat.ltb_spec (S i) (S c)), (Nat.ltb_spec (S (S i)) (S (S c))); auto; lia.
        * rewrite sm_next_count, Hc. lia.
        * unfold sm_next. rewrite Hc. cbn [fst sm_current]. rewrite Hv, Hs.
          replace (Z.to_nat n - S c)%nat with (S (Z.to_nat n - S (S c)))%nat by lia. reflexivity.
        * unfold sm_next. rewrite Hc. exact Hs. }
  intros i. unfold sm_set_target. cbn [sm_reset sm_target sm_steps]. rewrite HT. cbn [Bool.eqb].
  destruct (Z.leb_spec n 0); [lia|]. rewrite (G i _ (Z.to_nat n) (step (Z.to_nat n))); auto; cbn [sm_count sm_current sm_step sm_target sm_reset].
  - now rewrite Nat.sub_diag.
  - rewrite Nat.sub_diag, HT. reflexivity.
  - rewrite ?HT. cbn. rewrite Rminus_0_r, single_1, Rmult_1_l. apply single_single.
Qed.
Lemma gain_down {pow} (v : smooth (SingleWith pow)) n : sm_target v = true -> (0 < n)%Z -> forall i,
  gain (sm_set_target false (sm_reset n v)) i = if (S i <? Z.to_nat n)%nat then down (step (Z.to_nat n)) (S i) else 0.
Proof.
  intros HT Hn. 
  assert (G : forall i (v : smooth (SingleWith pow)) c s, sm_count v = c -> sm_current v = down s (Z.to_nat n - c) -> sm_step v = - s -> sm_target v = false -> (c <= Z.to_nat n)%nat ->
    gain v i = if (S i <? c)%nat then down s (Z.to_nat n - c + S i) else 0).
  { clear v HT. induction i as [|i IH]; intros v c s Hc Hv Hs Ht Hle.
    - rewrite gain_0. unfold sm_next. rewrite Hc. destruct c as [|[|c]]; cbn [snd]; try (rewrite Ht; reflexivity).
      cbn [Nat.ltb Nat.leb]. rewrite Hv, Hs, Nat.add_1_r. reflexivity.
    - rewrite gain_S. destruct c as [|[|c]].
      + rewrite (IH _ O s); rewrite ?sm_next_count, ?sm_next_target, ?Hc; auto; try lia; unfold sm_next; rewrite Hc; auto.
      + destruct (Nat.ltb_spec (S (S i)) 1); [lia|]. rewrite gain_done; [now rewrite sm_next_target, Ht|]. rewrite sm_next_count, Hc. lia.
      + rewrite (IH _ (S c) s); rewrite ?sm_next_target; auto; try lia.
        * replace (Z.to_nat n - S c + S i)%nat with (Z.to_nat n - S (S c) + S (S i))%nat by lia.
          destruct (Nat.ltb_spec (S i) (S c)), (Nat.ltb_spec (S (S i)) (S (S c))); auto; lia.
        * rewrite sm_next_count, Hc. lia.
        * unfold sm_next. rewrite Hc. cbn [fst sm_current]. rewrite Hv, Hs.
          replace (Z.to_nat n - S c)%nat with (S (Z.to_nat n - S (S c)))%nat by lia. reflexivity.
        * unfold sm_next. rewrite Hc. exact Hs. }
  intros i. unfold sm_set_target. cbn [sm_reset sm_target sm_steps]. rewrite HT. cbn [Bool.eqb].
  destruct (Z.leb_spec n 0); [lia|]. rewrite (G i _ (Z.to_nat n) (step (Z.to_nat n))); auto; cbn [sm_count sm_current sm_step sm_target sm_reset].
  - now rewrite Nat.sub_diag.
  - rewrite Nat.sub_diag, HT. reflexivity.
  - rewrite ?HT. change (single (single (0 - 1) * single (/ INR (Z.to_nat n))) = - step (Z.to_nat n)).
    replace (0 - 1) with (- (1)) by ring. rewrite single_opp, single_1.
    replace (- (1) * single (/ INR (Z.to_nat n))) with (- single (/ INR (Z.to_nat n))) by ring. rewrite single_opp. f_equal. apply single_single.
Qed.

(** the step *)
Lemma step_err n : (0 < n <= 2 ^ 22)%nat -> Rabs (step n - / INR n) <= 2 * u24 * / INR n.
Proof.
  intros [H0 H]. assert (P : 0 < INR n) by (apply lt_0_INR; auto).
  assert (U : INR n <= 4194304) by (apply le_INR in H; rewrite pow_INR in H; cbn [INR] in H; lra).
  pose proof (Rinv_0_lt_compat _ P) as P'. pose proof (single_err (/ INR n)) as E. rewrite (Rabs_pos_eq (/ INR n)) in E by lra.
  fold (step n) in E. eapply Rle_trans; [exact E|]. pose proof tiny_small as T.
  assert (V : / 4194304 <= / INR n) by (apply Rinv_le; lra).
  assert (u24 * u24 <= u24 * / INR n) by (apply Rmult_le_compat_l; unfold u24 in *; lra). lra.
Qed.
Lemma step_pos n : (0 < n)%nat -> 0 <= step n.
Proof.
  intros H. unfold step. rewrite <- single_0. apply single_le. left. apply Rinv_0_lt_compat, lt_0_INR. exact H.
Qed.

(** After [k] steps, the levels are off by at most (k + 2) 2^-24. *)
Lemma up_err n : (0 < n <= 2 ^ 22)%nat -> forall k, (k <= n)%nat -> Rabs (up (step n) k - INR k / INR n) <= INR k * u24 * (1 + 2 * / INR n).
Proof.
  intros Hn. pose proof (step_err n Hn) as HS. assert (P : 0 < INR n) by (apply lt_0_INR; lia).
  assert (U : INR n <= 4194304) by (destruct Hn as [_ H]; apply le_INR in H; rewrite pow_INR in H; cbn [INR] in H; lra).
  assert (P1 : 1 <= INR n) by (change 1 with (INR 1); apply le_INR; lia).
  pose proof (Rinv_0_lt_compat _ P) as P'. assert (P2 : / INR n <= 1) by (rewrite <- Rinv_1; apply Rinv_le; lra).
  assert (PN : INR n * / INR n = 1) by (apply Rinv_r; lra).
  assert (UP : 0 < u24) by (unfold u24; lra).
  induction k as [|k IH]; intros Hk; [cbn; unfold Rdiv; rewrite Rmult_0_l, Rminus_0_r, Rabs_R0; lra|].
  specialize (IH ltac:(lia)). cbn [up]. rewrite S_INR.
  assert (HK : 0 <= INR k) by apply pos_INR. assert (HKn : INR k + 1 <= INR n) by (rewrite <- S_INR; now apply le_INR).
  set (r := up (step n) k) in *. set (s := step n) in *. set (i := / INR n) in *. unfold Rdiv in *. fold i in IH |- *.
  assert (D : Rabs (r + s - (INR k + 1) * i) <= (INR k + 1) * u24 * (1 + 2 * i) - u24).
  { replace (r + s - (INR k + 1) * i) with ((r - INR k * i) + (s - i)) by ring.
    eapply Rle_trans; [apply Rabs_triang|]. lra. }
  assert (B : (INR k + 1) * i <= 1) by (rewrite <- PN; apply Rmult_le_compat_r; lra).
  assert (B0 : 0 <= (INR k + 1) * i) by (apply Rmult_le_pos; lra).
  assert (B2 : (INR k + 1) * u24 * (1 + 2 * i) <= 3 * / 4).
  { assert (Q : (INR k + 1) * u24 <= / 4) by (unfold u24; lra).
    assert (Q0 : 0 <= (INR k + 1) * u24) by (apply Rmult_le_pos; lra).
    apply Rle_trans with ((INR k + 1) * u24 * 3); [apply Rmult_le_compat_l; lra|lra]. }
  assert (X : Rabs (r + s) < 2).
  { replace (r + s) with ((r + s - (INR k + 1) * i) + (INR k + 1) * i) by ring.
    eapply Rle_lt_trans; [apply Rabs_triang|]. rewrite (Rabs_pos_eq ((INR k + 1) * i)) by auto. lra. }
  pose proof (single_err2 _ X) as E.
  replace (single (r + s) - (INR k + 1) * i) with ((single (r + s) - (r + s)) + (r + s - (INR k + 1) * i)) by ring.
  eapply Rle_trans; [apply Rabs_triang|]. lra.
Qed.
Lemma down_err n : (0 < n <= 2 ^ 22)%nat -> forall k, (k <= n)%nat -> Rabs (down (step n) k - (1 - INR k / INR n)) <= INR k * u24 * (1 + 2 * / INR n).
Proof.
  intros Hn. pose proof (step_err n Hn) as HS. assert (P : 0 < INR n) by (apply lt_0_INR; lia).
  assert (U : INR n <= 4194304) by (destruct Hn as [_ H]; apply le_INR in H; rewrite pow_INR in H; cbn [INR] in H; lra).
  assert (P1 : 1 <= INR n) by (change 1 with (INR 1); apply le_INR; lia).
  pose proof (Rinv_0_lt_compat _ P) as P'. assert (P2 : / INR n <= 1) by (rewrite <- Rinv_1; apply Rinv_le; lra).
  assert (PN : INR n * / INR n = 1) by (apply Rinv_r; lra).
  assert (UP : 0 < u24) by (unfold u24; lra).
  induction k as [|k IH]; intros Hk; [cbn; unfold Rdiv; rewrite Rmult_0_l; replace (1 - (1 - 0)) with 0 by ring; rewrite Rabs_R0; lra|].
  specialize (IH ltac:(lia)). cbn [down]. rewrite S_INR.
  assert (HK : 0 <= INR k) by apply pos_INR. assert (HKn : INR k + 1 <= INR n) by (rewrite <- S_INR; now apply le_INR).
  set (r := down (step n) k) in *. set (s := step n) in *. set (i := / INR n) in *. unfold Rdiv in *. fold i in IH |- *.
  assert (D : Rabs (r - s - (1 - (INR k + 1) * i)) <= (INR k + 1) * u24 * (1 + 2 * i) - u24).
  { replace (r - s - (1 - (INR k + 1) * i)) with ((r - (1 - INR k * i)) + - (s - i)) by ring.
    eapply Rle_trans; [apply Rabs_triang|]. rewrite Rabs_Ropp. lra. }
  assert (B : (INR k + 1) * i <= 1) by (rewrite <- PN; apply Rmult_le_compat_r; lra).
  assert (B0 : 0 <= (INR k + 1) * i) by (apply Rmult_le_pos; lra).
  assert (B2 : (INR k + 1) * u24 * (1 + 2 * i) <= 3 * / 4).
  { assert (Q : (INR k + 1) * u24 <= / 4) by (unfold u24; lra).
    assert (Q0 : 0 <= (INR k + 1) * u24) by (apply Rmult_le_pos; lra).
    apply Rle_trans with ((INR k + 1) * u24 * 3); [apply Rmult_le_compat_l; lra|lra]. }
  assert (X : Rabs (r - s) < 2).
  { replace (r - s) with ((r - s - (1 - (INR k + 1) * i)) + (1 - (INR k + 1) * i)) by ring.
    eapply Rle_lt_trans; [apply Rabs_triang|]. rewrite (Rabs_pos_eq (1 - (INR k + 1) * i)) by lra. lra. }
  pose proof (single_err2 _ X) as E.
  replace (single (r - s) - (1 - (INR k + 1) * i)) with ((single (r - s) - (r - s)) + (r - s - (1 - (INR k + 1) * i))) by ring.
  eapply Rle_trans; [apply Rabs_triang|]. lra.
Qed.

(** rising, falling *)
Lemma up_fixed n k : single (up (step n) k) = up (step n) k.
Proof. destruct k; cbn; [apply single_0|apply single_single]. Qed.
Lemma down_fixed n k : single (down (step n) k) = down (step n) k.
Proof. destruct k; cbn; [apply single_1|apply single_single]. Qed.
Lemma up_rises n k : (0 < n)%nat -> up (step n) k <= up (step n) (S k).
Proof. intros H. rewrite <- up_fixed. cbn [up]. apply single_le. pose proof (step_pos n H). lra. Qed.
Lemma down_falls n k : (0 < n)%nat -> down (step n) (S k) <= down (step n) k.
Proof. intros H. rewrite <- (down_fixed n k). cbn [down]. apply single_le. pose proof (step_pos n H). lra. Qed.

(** exact when the length is a power of two *)
Lemma up_exact m k : (m <= 22)%nat -> (k <= 2 ^ m)%nat -> up (step (2 ^ m)) k = INR k / INR (2 ^ m).
Proof.
  intros Hm Hk.
  assert (B : / INR (2 ^ m) = bpow radix2 (- Z.of_nat m)).
  { rewrite bpow_opp. f_equal. rewrite pow_INR. cbn [INR]. replace (1 + 1) with 2 by ring. 
    rewrite bpow_powerRZ. cbn. apply pow_powerRZ. }
  assert (F : forall j, (j <= 2 ^ m)%nat -> single (INR j / INR (2 ^ m)) = INR j / INR (2 ^ m)).
  { intros j Hj. apply single_id. unfold Rdiv. rewrite B, INR_IZR_INZ. apply format_dyadic; [|lia].
    rewrite Z.abs_eq by lia. apply Z.le_lt_trans with (2 ^ 22)%Z; [|reflexivity].
    apply Z.le_trans with (2 ^ Z.of_nat m)%Z; [|apply Z.pow_le_mono_r; lia].
    change 2%Z with (Z.of_nat 2). rewrite <- Nat2Z.inj_pow. lia. }
  assert (S1 : step (2 ^ m) = / INR (2 ^ m)).
  { unfold step. specialize (F 1%nat ltac:(pose proof (Nat.pow_nonzero 2 m); lia)). cbn [INR] in F. unfold Rdiv in F. rewrite Rmult_1_l in F. exact F. }
  induction k as [|k IH]; [cbn; unfold Rdiv; ring|]. cbn [up]. rewrite IH, S1 by lia.
  replace (INR k / INR (2 ^ m) + / INR (2 ^ m)) with (INR (S k) / INR (2 ^ m)) by (rewrite S_INR; unfold Rdiv; ring). now apply F.
Qed.

Lemma down_exact m k : (m <= 22)%nat -> (k <= 2 ^ m)%nat -> down (step (2 ^ m)) k = 1 - INR k / INR (2 ^ m).
Proof.
  intros Hm Hk.
  assert (B : / INR (2 ^ m) = bpow radix2 (- Z.of_nat m)).
  { rewrite bpow_opp. f_equal. rewrite pow_INR. cbn [INR]. replace (1 + 1) with 2 by ring.
    rewrite bpow_powerRZ. cbn. apply pow_powerRZ. }
  assert (F : forall j, (j <= 2 ^ m)%nat -> single (INR j / INR (2 ^ m)) = INR j / INR (2 ^ m)).
  { intros j Hj. apply single_id. unfold Rdiv. rewrite B, INR_IZR_INZ. apply format_dyadic; [|lia].
    rewrite Z.abs_eq by lia. apply Z.le_lt_trans with (2 ^ 22)%Z; [|reflexivity].
    apply Z.le_trans with (2 ^ Z.of_nat m)%Z; [|apply Z.pow_le_mono_r; lia].
    change 2%Z with (Z.of_nat 2). rewrite <- Nat2Z.inj_pow. lia. }
  assert (N0 : INR (2 ^ m) <> 0) by (apply not_0_INR, Nat.pow_nonzero; lia).
  assert (S1 : step (2 ^ m) = / INR (2 ^ m)).
  { unfold step. specialize (F 1%nat ltac:(pose proof (Nat.pow_nonzero 2 m); lia)). cbn [INR] in F. unfold Rdiv in F. rewrite Rmult_1_l in F. exact F. }
  assert (E : forall j, (j <= 2 ^ m)%nat -> 1 - INR j / INR (2 ^ m) = INR (2 ^ m - j) / INR (2 ^ m)).
  { intros j Hj. rewrite minus_INR by auto. field. auto. }
  induction k as [|k IH]; [cbn; unfold Rdiv; ring|]. cbn [down]. rewrite IH, S1 by lia.
  replace (1 - INR k / INR (2 ^ m) - / INR (2 ^ m)) with (1 - INR (S k) / INR (2 ^ m)) by (rewrite S_INR; unfold Rdiv; ring).
  rewrite E by auto. apply F. lia.
Qed.

(** ** the two gains *)
Definition rising (n i : nat) : R := if (S i <? n)%nat then up (step n) (S i) else 1.
Definition falling (n i : nat) : R := if (S i <? n)%nat then down (step n) (S i) else 0.
Lemma share_lt n t : (S t < n)%nat -> share n t = INR (S t) / INR n.
Proof. intros H. unfold share. now rewrite Nat.min_l by lia. Qed.
Lemma share_ge n t : (0 < n)%nat -> (n <= S t)%nat -> share n t = 1.
Proof. intros H0 H. unfold share. rewrite Nat.min_r by lia. unfold Rdiv. apply Rinv_r, not_0_INR. lia. Qed.
Lemma err_bound n k : (0 < n)%nat -> (1 < n)%nat -> INR k * u24 * (1 + 2 * / INR n) <= INR k * (2 * u24).
Proof.
  intros H0 H. assert (P : 2 <= INR n) by (change 2 with (INR 2); apply le_INR; lia).
  assert (Q : / INR n <= / 2) by (apply Rinv_le; lra). rewrite Rmult_assoc. apply Rmult_le_compat_l; [apply pos_INR|].
  rewrite (Rmult_comm 2 u24). apply Rmult_le_compat_l; unfold u24; lra.
Qed.
Lemma rising_err n t : (0 < n <= 2 ^ 22)%nat -> Rabs (rising n t - share n t) <= INR (S t) * (2 * u24).
Proof.
  intros Hn. unfold rising. destruct (Nat.ltb_spec (S t) n).
  - rewrite share_lt by auto. eapply Rle_trans; [apply up_err; auto; lia|]. apply err_bound; lia.
  - rewrite share_ge by lia. replace (1 - 1) with 0 by ring. rewrite Rabs_R0. apply Rmult_le_pos; [apply pos_INR|unfold u24; lra].
Qed.
Lemma falling_err n t : (0 < n <= 2 ^ 22)%nat -> Rabs (falling n t - (1 - share n t)) <= INR (S t) * (2 * u24).
Proof.
  intros Hn. unfold falling. destruct (Nat.ltb_spec (S t) n).
  - rewrite share_lt by auto. eapply Rle_trans; [apply down_err; auto; lia|]. apply err_bound; lia.
  - rewrite share_ge by lia. replace (0 - (1 - 1)) with 0 by ring. rewrite Rabs_R0. apply Rmult_le_pos; [apply pos_INR|unfold u24; lra].
Qed.
Lemma share_range n t : (0 < n)%nat -> 0 <= share n t <= 1.
Proof.
  intros H. unfold share, Rdiv. assert (P : 0 < INR n) by now apply lt_0_INR. pose proof (Rinv_0_lt_compat _ P).
  split; [apply Rmult_le_pos; [apply pos_INR|lra]|]. rewrite <- (Rinv_r (INR n)) by lra.
  apply Rmult_le_compat_r; [lra|]. apply le_INR. lia.
Qed.
(** inside the fade the levels stay below 3/2 *)
Lemma rising_bound n t : (0 < n <= 2 ^ 22)%nat -> Rabs (rising n t) <= 3 / 2.
Proof.
  intros Hn. destruct (Nat.lt_ge_cases (S t) n) as [H|H].
  - pose proof (rising_err n t Hn) as E. pose proof (share_range n t ltac:(lia)) as HSR.
    assert (I : INR (S t) <= 4194304). { replace 4194304 with (INR (2 ^ 22)) by (rewrite pow_INR; cbn [INR]; ring). apply le_INR. lia. }
    assert (X : INR (S t) * (2 * u24) <= / 2) by (unfold u24; lra).
    replace (rising n t) with (rising n t - share n t + share n t) by ring. eapply Rle_trans; [apply Rabs_triang|].
    rewrite (Rabs_pos_eq (share n t)) by tauto. lra.
  - unfold rising. destruct (Nat.ltb_spec (S t) n); [lia|]. rewrite Rabs_R1. lra.
Qed.
Lemma falling_bound n t : (0 < n <= 2 ^ 22)%nat -> Rabs (falling n t) <= 3 / 2.
Proof.
  intros Hn. destruct (Nat.lt_ge_cases (S t) n) as [H|H].
  - pose proof (falling_err n t Hn) as E. pose proof (share_range n t ltac:(lia)) as HSR.
    assert (I : INR (S t) <= 4194304). { replace 4194304 with (INR (2 ^ 22)) by (rewrite pow_INR; cbn [INR]; ring). apply le_INR. lia. }
    assert (X : INR (S t) * (2 * u24) <= / 2) by (unfold u24; lra).
    replace (falling n t) with (falling n t - (1 - share n t) + (1 - share n t)) by ring. eapply Rle_trans; [apply Rabs_triang|].
    rewrite (Rabs_pos_eq (1 - share n t)) by lra. lra.
  - unfold falling. destruct (Nat.ltb_spec (S t) n); [lia|]. rewrite Rabs_R0. lra.
Qed.

(** ** what comes out *)
Lemma scaled_err x g G d : Rabs (g - G) <= d -> Rabs g <= 3 / 2 -> Rabs (single (x * g) - x * G) <= Rabs x * (d + 2 * u24) + tiny.
Proof.
  intros Hd Hg. pose proof (single_err (x * g)) as E. rewrite Rabs_mult in E. pose proof (Rabs_pos x) as X.
  replace (single (x * g) - x * G) with ((single (x * g) - x * g) + x * (g - G)) by ring.
  eapply Rle_trans; [apply Rabs_triang|]. rewrite (Rabs_mult x).
  assert (Rabs x * Rabs (g - G) <= Rabs x * d) by (apply Rmult_le_compat_l; auto).
  assert (Rabs x * Rabs g * u24 <= Rabs x * (2 * u24)).
  { rewrite Rmult_assoc. apply Rmult_le_compat_l; auto. apply Rmult_le_compat_r; unfold u24; lra. }
  lra.
Qed.
Lemma mixed_err x y f r F G d : Rabs (f - F) <= d -> Rabs (r - G) <= d -> Rabs f <= 3 / 2 -> Rabs r <= 3 / 2 ->
  Rabs (single (single (x * f) + single (y * r)) - (x * F + y * G)) <= (Rabs x + Rabs y) * (d + 4 * u24) + 4 * tiny.
Proof.
  intros Hf Hr Bf Br. pose proof (scaled_err x f F d Hf Bf) as E1. pose proof (scaled_err y r G d Hr Br) as E2.
  set (p := single (x * f)) in *. set (q := single (y * r)) in *.
  pose proof (single_err (p + q)) as E3. pose proof (Rabs_pos x) as X. pose proof (Rabs_pos y) as Y. pose proof tiny_pos as T.
  assert (UP : 0 < u24) by (unfold u24; lra). assert (U1 : u24 <= / 100) by (unfold u24; lra).
  assert (M : forall z g, Rabs g <= 3 / 2 -> Rabs (single (z * g)) <= Rabs z * (3 / 2 * (1 + u24)) + tiny).
  { intros z g Hg. pose proof (single_err (z * g)) as E. rewrite Rabs_mult in E.
    replace (single (z * g)) with ((single (z * g) - z * g) + z * g) by ring. eapply Rle_trans; [apply Rabs_triang|]. rewrite Rabs_mult.
    pose proof (Rabs_pos z) as Z. assert (Rabs z * Rabs g <= Rabs z * (3 / 2)) by (apply Rmult_le_compat_l; auto).
    assert (Rabs z * Rabs g * u24 <= Rabs z * (3 / 2) * u24) by (apply Rmult_le_compat_r; lra). lra. }
  assert (M3 : Rabs (p + q) <= (Rabs x + Rabs y) * (3 / 2 * (1 + u24)) + 2 * tiny).
  { eapply Rle_trans; [apply Rabs_triang|]. pose proof (M x f Bf). pose proof (M y r Br). fold p in H. fold q in H0. lra. }
  assert (M4 : Rabs (p + q) * u24 <= (Rabs x + Rabs y) * (2 * u24) + tiny).
  { apply Rle_trans with (((Rabs x + Rabs y) * (3 / 2 * (1 + u24)) + 2 * tiny) * u24); [apply Rmult_le_compat_r; lra|].
    assert (3 / 2 * (1 + u24) <= 2) by lra.
    assert ((Rabs x + Rabs y) * (3 / 2 * (1 + u24)) <= (Rabs x + Rabs y) * 2) by (apply Rmult_le_compat_l; lra).
    assert (((Rabs x + Rabs y) * (3 / 2 * (1 + u24))) * u24 <= (Rabs x + Rabs y) * 2 * u24) by (apply Rmult_le_compat_r; lra).
    assert (2 * tiny * u24 <= tiny * (2 * / 100)) by (rewrite (Rmult_comm 2), Rmult_assoc; apply Rmult_le_compat_l; lra). lra. }
  replace (single (p + q) - (x * F + y * G)) with ((single (p + q) - (p + q)) + ((p - x * F) + (q - y * G))) by ring.
  eapply Rle_trans; [apply Rabs_triang|].
  pose proof (Rabs_triang (p - x * F) (q - y * G)). lra.
Qed.

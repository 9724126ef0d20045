(** * Levels of fades in IEEE arithmetic and in rounded real arithmetic *)
From Coq Require Import Reals Lra ZArith Floats.SpecFloat.
From Flocq Require Import Core BinarySingleNaN.
From Verif.Model Require Import Base Arith ArithSingle ArithIEEE Juce Float32 SmoothedValue Convolver ConvolutionEngine.
From Verif.Spec Require Import Precision Engine Overflow.
From Verif.Proofs Require Import Lists SingleProof FadeProof Ext IEEESingle EngineHet.
Open Scope R_scope.

#[local] Existing Instance P24.
#[local] Existing Instance P128.
Lemma SFdiv_eq (x y : b32) : SFdiv 24 128 (B2SF x) (B2SF y) = B2SF (Bdiv mode_NE x y).
Proof.
  destruct x, y; try reflexivity. simpl. rewrite B2SF_SF2B. destruct (SFdiv_core_binary _ _ _ _ _ _) as [[mz ez] lz]. apply round_aux_eq.
Qed.
Lemma number_div x y a b : number x a -> number y b -> b <> 0 -> Rabs (single (a / b)) <= big -> number (SFdiv 24 128 x y) (single (a / b)).
Proof.
  intros Hx Hy H0 H. destruct (number_B _ _ Hx) as (X & -> & FX & <-). destruct (number_B _ _ Hy) as (Y & -> & FY & <-).
  pose proof (Bdiv_correct 24 128 _ _ mode_NE X Y H0) as C.
  change (round radix2 (SpecFloat.fexp 24 128) (round_mode mode_NE) ?z) with (single z) in C.
  rewrite fits_range in C by exact H. destruct C as (C1 & C2 & _). rewrite FX in C2. rewrite SFdiv_eq, <- C1. now apply B_number.
Qed.
Lemma number_1 : number (ieee_of_nat 1) 1.
Proof. split; [vm_compute; reflexivity|]. split; [vm_compute; reflexivity|]. vm_compute ieee_of_nat. unfold SF2R, F2R. cbn. lra. Qed.
Lemma number_of_nat n : (n < 2 ^ 24)%nat -> number (ieee_of_nat n) (INR n).
Proof.
  intros Hn. unfold ieee_of_nat. pose proof (binary_normalize_correct 24 128 P24 P128 mode_NE (Z.of_nat n) 0 false) as C. cbv zeta in C.
  change (round radix2 (SpecFloat.fexp 24 128) (round_mode mode_NE) ?z) with (single z) in C.
  assert (HZ : (Z.of_nat n < 2 ^ 24)%Z).
  { apply Nat2Z.inj_lt in Hn. rewrite Nat2Z.inj_pow in Hn. exact Hn. }
  assert (E : single (@F2R radix2 {| Fnum := Z.of_nat n; Fexp := 0 |}) = INR n).
  { unfold F2R. cbn [Fnum Fexp]. rewrite single_id; [cbn; rewrite INR_IZR_INZ; ring|]. apply format_dyadic; lia. }
  rewrite E in C. rewrite Rlt_bool_true in C.
  - destruct C as (C1 & C2 & _). rewrite normalize_eq, <- C1. now apply B_number.
  - rewrite Rabs_pos_eq by apply pos_INR. rewrite INR_IZR_INZ. apply Rlt_le_trans with (IZR (2 ^ 24)); [now apply IZR_lt|].
    change (IZR (2 ^ 24)) with (bpow radix2 24). apply bpow_le. lia.
Qed.

(** bounds that survive rounding *)
Lemma single_bound m e z : (0 <= m < 2 ^ 24)%Z -> (-149 <= e)%Z -> Rabs z <= IZR m * bpow radix2 e -> Rabs (single z) <= IZR m * bpow radix2 e.
Proof.
  intros Hm He H. pose proof (single_id _ (format_dyadic m e ltac:(lia) He)) as E. apply Rabs_le. apply Rabs_le_inv in H. split.
  - rewrite <- E, <- single_opp. apply SingleProof.single_le. lra.
  - rewrite <- E. apply SingleProof.single_le. lra.
Qed.
Lemma single_small z : Rabs z <= 2 -> Rabs (single z) <= big.
Proof.
  intros H. apply Rle_trans with 2; [|unfold big; lra]. replace 2 with (IZR 1 * bpow radix2 1) in * by (cbn; lra). now apply single_bound.
Qed.

Section Levels.
  Variables (cosf sinf : nat -> spec_float) (powf : spec_float * spec_float -> nat -> spec_float * spec_float).
  Variable pow : R * R -> nat -> R * R.
  Notation I := (IEEE cosf sinf powf).
  Notation F := (SingleWith pow).
  (** inputs; outputs of convolvers; levels; outputs of the engine *)
  Definition Qin (x : sample I) (r : sample F) : Prop := number x r /\ Rabs r <= 65536.
  Definition Qout (x : sample I) (r : sample F) : Prop := number x r /\ Rabs r <= 21 * 2 ^ 121.
  Definition Glev (x : sample I) (r : sample F) : Prop := number x r /\ Rabs r <= 3 / 2.
  Definition Qmix (x : sample I) (r : sample F) : Prop := number x r /\ Rabs r <= big.

  Lemma Q_through x r : Qin x r -> Qout x r. Proof. intros [H1 H2]. split; auto. lra. Qed.
  Lemma Q_out x r : Qout x r -> Qmix x r. Proof. intros [H1 H2]. split; auto. unfold big. lra. Qed.
  Lemma bp k : bpow radix2 (Z.of_nat k) = 2 ^ k. Proof. rewrite bpow_powerRZ, <- pow_powerRZ. reflexivity. Qed.
  Lemma Q_product x r g s : Qout x r -> Glev g s -> number (SFmul 24 128 x g) (single (r * s)) /\ Rabs (single (r * s)) <= 63 * 2 ^ 120.
  Proof.
    intros [H1 H2] [H3 H4]. assert (B : Rabs (single (r * s)) <= 63 * 2 ^ 120).
    { rewrite <- (bp 120). apply (single_bound 63); [lia|lia|]. rewrite Rabs_mult, (bp 120).
      pose proof (Rabs_pos r). pose proof (Rabs_pos s). apply Rle_trans with (21 * 2 ^ 121 * (3 / 2)); [apply Rmult_le_compat; assumption|lra]. }
    split; auto. apply number_mul; auto. unfold big. lra.
  Qed.
  Lemma Q_scale x r g s : Qout x r -> Glev g s -> Qmix (smul x g) (@smul F r s).
  Proof. intros H1 H2. destruct (Q_product x r g s H1 H2) as [H3 H4]. split; [exact H3|]. cbn [smul SingleWith]. unfold big. lra. Qed.
  Lemma Q_mix x r y t g s h u : Qout x r -> Qout y t -> Glev g s -> Glev h u ->
    Qmix (sadd (smul x g) (smul y h)) (@sadd F (@smul F r s) (@smul F t u)).
  Proof.
    intros H1 H2 H3 H4. destruct (Q_product x r g s H1 H3) as [P1 P2]. destruct (Q_product y t h u H2 H4) as [P3 P4].
    assert (B : Rabs (single (single (r * s) + single (t * u))) <= 63 * 2 ^ 121).
    { rewrite <- (bp 121). apply (single_bound 63); [lia|lia|]. rewrite (bp 121). eapply Rle_trans; [apply Rabs_triang|]. lra. }
    split; [apply (number_add _ _ _ _ P1 P3)|]; cbn [sadd smul SingleWith]; unfold big; lra.
  Qed.

  Lemma number_level b : number (@level I b) (@level F b).
  Proof. destruct b; [apply number_1|apply number_0]. Qed.
  Lemma level_bound b : Rabs (@level F b) <= 1.
  Proof. destruct b; cbn; [rewrite Rabs_R1|rewrite Rabs_R0]; lra. Qed.

  Lemma up_bound n k : (0 < n <= 2 ^ 22)%nat -> (k < n)%nat -> Rabs (up (step n) k) <= 3 / 2.
  Proof.
    intros Hn Hk. destruct k as [|k]; [cbn; rewrite Rabs_R0; lra|]. pose proof (rising_bound n k Hn) as H. unfold rising in H.
    destruct (Nat.ltb_spec (S k) n); [exact H|lia].
  Qed.
  Lemma down_bound n k : (0 < n <= 2 ^ 22)%nat -> (k < n)%nat -> Rabs (down (step n) k) <= 3 / 2.
  Proof.
    intros Hn Hk. destruct k as [|k]; [cbn; rewrite Rabs_R1; lra|]. pose proof (falling_bound n k Hn) as H. unfold falling in H.
    destruct (Nat.ltb_spec (S k) n); [exact H|lia].
  Qed.
  Lemma step_bound n : (0 < n)%nat -> Rabs (step n) <= 1.
  Proof.
    intros Hn. unfold step. replace 1 with (IZR 1 * bpow radix2 0) by (cbn; lra). apply single_bound; [lia|lia|].
    assert (P : 1 <= INR n) by (change 1 with (INR 1); apply le_INR; lia). rewrite Rabs_pos_eq by (left; apply Rinv_0_lt_compat; lra).
    replace (IZR 1 * bpow radix2 0) with 1 by (cbn; lra). rewrite <- Rinv_1. apply Rinv_le; lra.
  Qed.

  (** a fade under way: [k] of [n] levels are over *)
  Definition going (v : smooth F) : Prop := exists n k, (0 < n <= 2 ^ 22)%nat /\ (k < n)%nat /\ sm_count v = (n - k)%nat /\
    ((sm_current v = up (step n) k /\ sm_step v = step n) \/ (sm_current v = down (step n) k /\ sm_step v = - step n)).
  Record smrel (v : smooth I) (v' : smooth F) : Prop := {
    sr_target : sm_target v = sm_target v';
    sr_count : sm_count v = sm_count v';
    sr_steps : sm_steps v = sm_steps v';
    sr_cur : number (sm_current v) (sm_current v');
    sr_step : number (sm_step v) (sm_step v');
    sr_going : (0 < sm_count v')%nat -> going v'
  }.
  Lemma sm_rel_new : smrel sm_new sm_new.
  Proof. constructor; cbn; auto; try apply number_0. lia. Qed.
  Lemma sm_rel_set b v v' : smrel v v' -> smrel (sm_set b v) (sm_set b v').
  Proof. intros []. constructor; cbn [sm_set sm_target sm_count sm_steps sm_current sm_step]; auto; [apply number_level|lia]. Qed.
  Lemma sm_rel_reset n v v' : smrel v v' -> smrel (sm_reset n v) (sm_reset n v').
  Proof. intros []. constructor; cbn [sm_reset sm_target sm_count sm_steps sm_current sm_step]; auto; [rewrite sr_target0; apply number_level|lia]. Qed.

  Lemma number_step n : (0 < n <= 2 ^ 22)%nat -> number (@sinvn I n) (step n).
  Proof.
    intros Hn. unfold step. replace (/ INR n) with (1 / INR n) by (unfold Rdiv; ring). apply number_div.
    - apply number_1.
    - apply number_of_nat. apply Nat.le_lt_trans with (2 ^ 22)%nat; [lia|]. apply Nat.pow_lt_mono_r; lia.
    - apply not_0_INR. lia.
    - replace (1 / INR n) with (/ INR n) by (unfold Rdiv; ring). eapply Rle_trans; [apply (step_bound n); lia|]. unfold big. lra.
  Qed.
  Lemma step_format n : single (step n) = step n. Proof. apply single_single. Qed.
  Definition fade_len (n : Z) : Prop := (n <= 2 ^ 22)%Z.
  Lemma sm_rel_begin b n v v' : fade_len n -> smrel v v' -> smrel (sm_set_target b (sm_reset n v)) (sm_set_target b (sm_reset n v')).
  Proof.
    intros Hn H. pose proof (sm_rel_reset n v v' H) as HR. unfold sm_set_target. rewrite (sr_target _ _ HR), (sr_steps _ _ HR).
    destruct (Bool.eqb b (sm_target (sm_reset n v'))) eqn:Eb; [exact HR|]. destruct (Z.leb_spec (sm_steps (sm_reset n v')) 0) as [H0|H0]; [now apply sm_rel_set|].
    cbn [sm_reset sm_target sm_steps] in Eb, H0 |- *. set (N := Z.to_nat n). red in Hn.
    assert (HN : (0 < N <= 2 ^ 22)%nat).
    { unfold N. split; [lia|]. apply Nat2Z.inj_le. rewrite Z2Nat.id by lia. rewrite Nat2Z.inj_pow. exact Hn. }
    set (t := sm_target v') in *. pose proof (number_step N HN) as Hst. pose proof (step_bound N (proj1 HN)) as SB.
    assert (ED : single (@level F b - @level F t) = (if b then 1 else -1)).
    { destruct b, t; cbn [Bool.eqb] in Eb; try discriminate; cbn [level s0 s1 SingleWith].
      - rewrite Rminus_0_r. apply single_1.
      - replace (0 - 1) with (- (1)) by ring. rewrite single_opp, single_1. lra. }
    assert (ES : @smul F (@ssub F (@level F b) (@level F t)) (@sinvn F N) = (if b then step N else - step N)).
    { cbn [smul ssub sinvn SingleWith]. etransitivity; [apply f_equal; apply (f_equal (fun z => z * single (/ INR N))); exact ED|].
      destruct b; [rewrite Rmult_1_l; apply single_single|]. replace (-1 * single (/ INR N)) with (- single (/ INR N)) by ring.
      rewrite single_opp. f_equal. apply single_single. }
    constructor; cbn [sm_reset sm_target sm_count sm_steps sm_current sm_step]; auto.
    - pose proof (sr_cur _ _ HR) as HC. exact HC.
    - pose proof (sr_target _ _ H) as HT. fold t in HT. rewrite HT.
      refine (eq_rect_r (number _) _ ES). fold N.
      assert (N1 : number (@ssub I (@level I b) (@level I t)) (if b then 1 else -1)).
      { rewrite <- ED. apply number_sub; try apply number_level. rewrite ED. unfold big. destruct b; [rewrite Rabs_R1; lra|rewrite Rabs_left by lra; lra]. }
      assert (E2 : (if b then step N else - step N) = single ((if b then 1 else -1) * step N)).
      { destruct b; [rewrite Rmult_1_l; symmetry; apply step_format|]. replace (-1 * step N) with (- step N) by ring. rewrite single_opp, step_format. reflexivity. }
      refine (eq_rect_r (number _) _ E2). apply number_mul; [exact N1|exact Hst|]. rewrite <- E2. unfold big. destruct b; [|rewrite Rabs_Ropp]; lra.
    - intros _. exists N, 0%nat. split; [exact HN|]. split; [lia|]. split; [fold N; cbn [sm_count]; lia|].
      cbn [sm_current sm_step]. fold t N. destruct b, t; cbn [Bool.eqb] in Eb; try discriminate; [left|right]; (split; [reflexivity|exact ES]).
  Qed.
  Lemma sm_rel_next v v' : smrel v v' -> smrel (fst (sm_next v)) (fst (sm_next v')) /\ Glev (snd (sm_next v)) (snd (sm_next v')).
  Proof.
    intros H. unfold sm_next. rewrite (sr_count _ _ H), (sr_target _ _ H).
    assert (GL : forall b, Glev (@level I b) (@level F b)) by (intros b; split; [apply number_level|pose proof (level_bound b); lra]).
    destruct (sm_count v') as [|[|c]] eqn:Ec; cbn [fst snd].
    - split; auto.
    - split; auto. destruct H. constructor; cbn [sm_target sm_count sm_steps sm_current sm_step]; auto; [apply number_level|lia].
    - destruct (sr_going _ _ H ltac:(lia)) as (n & k & Hn & Hk & Hc & HG).
      assert (HK : (S k < n)%nat) by lia.
      assert (EX : @sadd F (sm_current v') (sm_step v') = up (step n) (S k) /\ sm_step v' = step n \/
                   @sadd F (sm_current v') (sm_step v') = down (step n) (S k) /\ sm_step v' = - step n).
      { destruct HG as [[G1 G2]|[G1 G2]]; [left|right]; (split; [|exact G2]); cbn [up down sadd SingleWith]; rewrite G1, G2; reflexivity. }
      assert (B : Rabs (@sadd F (sm_current v') (sm_step v')) <= 3 / 2).
      { destruct EX as [[-> _]|[-> _]]; [now apply up_bound|now apply down_bound]. }
      assert (NN : number (@sadd I (sm_current v) (sm_step v)) (@sadd F (sm_current v') (sm_step v'))).
      { apply (number_add _ _ _ _ (sr_cur _ _ H) (sr_step _ _ H)). cbn [sadd SingleWith] in B. unfold big. lra. }
      split; [|split; assumption]. destruct H. constructor; cbn [sm_target sm_count sm_steps sm_current sm_step]; auto.
      intros _. exists n, (S k). split; [exact Hn|]. split; [exact HK|]. split; [cbn [sm_count]; lia|]. cbn [sm_current sm_step]. exact EX.
  Qed.

  (** at sample rates up to 1 MHz no fade takes more than 2^22 samples *)
  Definition short (b : bounds) : Prop := (lower_fade_bound b <= upper_fade_bound b <= 2 ^ 22)%Z /\ (in_out_fade_length b <= 2 ^ 22)%Z.
  Lemma short_fade b ir f st n : short b -> fade_of b ir f = Ok (st, n) -> fade_len n.
  Proof.
    intros [[H1 H2] H3]. unfold fade_of, fade_len. destruct (if (_ <=? _)%Z then _ else _).
    - intros E. injection E as <- <-. exact H3.
    - destruct (to_int _) as [z| |]; cbn [bind]; try discriminate. destruct (assert _) as [u| |]; cbn [bind]; try discriminate.
      intros E. injection E as <- <-. lia.
  Qed.
  Lemma short_spec s b : (0 < ps_rate_num s)%Z -> (0 < ps_rate_den s)%Z -> (ps_rate_num s <= 1000000 * ps_rate_den s)%Z ->
    engine_bounds s = Ok b -> short b.
  Proof.
    intros H1 H2 H3 E. destruct (bounds_ok s H1 H2 ltac:(lia)) as (b' & E' & _ & B2 & _ & _ & B5 & B6 & _).
    assert (b' = b) by congruence. subst b'.
    destruct k_upper as [U1 U2].
    pose proof (ceil_close kUpperFadeTimeS 4 1 (ps_rate_num s) (ps_rate_den s) U1 ltac:(lia) ltac:(lia) ltac:(lia) H2 U2 ltac:(lia)) as C2. cbv zeta in C2.
    rewrite <- B2 in C2. assert (U : (upper_fade_bound b < 4000002)%Z) by nia. unfold short. change (2 ^ 22)%Z with 4194304%Z. lia.
  Qed.
End Levels.

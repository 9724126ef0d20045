(** * The non-uniform convolver in single precision *)
From Coq Require Import Reals Lra Lia Psatz ZArith.
From Verif.Model Require Import Base Arith ArithReal ArithSingle Juce Partitioning PartitionSchemes
     UniformPartitionedConvolver TimeDistributedUPCMulti TimeDistributedNUPC.
From Verif.Spec Require Import Transform Signal Precision PrecisionScheme.
From Verif.Proofs Require Import Lists ComplexAlg Butterfly FFTProof Blocks Streams UPCProof TDUPCProof TDUPCStream MultiProof NUPCProof
     UPCFloat NUPCFloat NUPCMake Norms SingleProof SingleFFT SingleTD SingleUPC.
From Verif.Spec Require Import PrecisionScheme.
Open Scope R_scope.

Lemma ssum_rsum n f : @ssum Rarith n f = rsum n f.
Proof. induction n as [|n IH]; [reflexivity|]. cbn [ssum rsum]. now rewrite IH. Qed.

(** the peak of a convolution *)
Lemma fir_level K P (h x : nat -> R) X t : 0 <= X -> (forall i, Rabs (x i) <= X) ->
  Rabs (@fir Rarith (K * P) h x t) <= sqrt (INR P) * X * rsum K (fun r => energy P (fun q => h (r * P + q)%nat)).
Proof.
  intros HX0 HX. unfold fir. rewrite ssum_rsum.
  assert (Ha : forall e d, Rabs (@ago Rarith x e d) <= X).
  { intros e d. unfold ago. destruct (_ <=? _)%nat; auto. cbn. now rewrite Rabs_R0. }
  induction K as [|K IH].
  - cbn [Nat.mul rsum]. rewrite Rabs_R0. lra.
  - replace (S K * P)%nat with (K * P + P)%nat by lia. rewrite rsum_app. cbn [rsum].
    eapply Rle_trans; [apply Rabs_triang|]. rewrite Rmult_plus_distr_l. apply Rplus_le_compat; [exact IH|].
    eapply Rle_trans; [apply rsum_abs|].
    apply Rle_trans with (X * rsum P (fun i => 1 * Rabs (h (K * P + i)%nat))).
    + rewrite <- rsum_scal. apply rsum_le. intros i Hi. cbn [smul Rarith]. rewrite Rabs_mult.
      pose proof (Rabs_pos (h (K * P + i)%nat)). specialize (Ha t (K * P + i)%nat).
      rewrite Rmult_1_l, Rmult_comm. apply Rmult_le_compat_r; auto.
    + pose proof (cauchy P (fun _ => 1) (fun i => Rabs (h (K * P + i)%nat))) as C. rewrite energy_const in C by lra.
      rewrite Rmult_1_r in C.
      assert (Ee : energy P (fun i => Rabs (h (K * P + i)%nat)) = energy P (fun q => h (K * P + q)%nat)).
      { unfold energy. f_equal. apply rsum_ext. intros i _. rewrite <- Rabs_mult. apply Rabs_pos_eq. nra. }
      rewrite Ee in C. rewrite Rmult_assoc, (Rmult_comm (sqrt _)), Rmult_assoc. apply Rmult_le_compat_l; [exact HX0|].
      rewrite (Rmult_comm _ (sqrt _)). exact C.
Qed.

Lemma rsum_prefix n m f : (n <= m)%nat -> (forall i, 0 <= f i) -> rsum n f <= rsum m f.
Proof.
  intros H Hf. replace m with (n + (m - n))%nat by lia. rewrite rsum_app.
  pose proof (rsum_nonneg (m - n) (fun i => f (n + i)%nat) (fun i _ => Hf _)). lra.
Qed.

(** ** bounds without the additions that follow *)
Definition head_W (N B K : nat) (h : list R) (X : R) : R :=
  2 * (sqrt (INR N) * X * rsum K (fun r => part_energy 0 B h r + sqrt (INR N) * floor50)).
Definition head_f (delta : R) (K : nat) : R := (1 + delta) ^ 3 * (1 + 2 * u24) ^ (K + 3).
Definition piece_W (off P K : nat) (h : list R) (X : R) : R :=
  2 * (sqrt (INR P) * X * rsum K (fun r => part_energy off P h r + sqrt (INR P) * floor50)).
Definition piece_f (tau : R) (P K : nat) : R := (1 + (tau + 12 * u24)) ^ (3 * Nat.log2 (2 * P)) * (1 + 2 * u24) ^ (K + 3).
Fixpoint tails_W (B off : nat) (l : list layout) (h : list R) (X : R) : R :=
  match l with
  | [] => 0
  | a :: t => let P := (Z.to_nat (pl_size a) * B)%nat in let K := Z.to_nat (pl_num a) in
      piece_W off P K h X + tails_W B (off + P * K) t h X
  end.
Fixpoint tails_S (tau : R) (B off : nat) (l : list layout) (h : list R) (X : R) : R :=
  match l with
  | [] => 0
  | a :: t => let P := (Z.to_nat (pl_size a) * B)%nat in let K := Z.to_nat (pl_num a) in
      piece_f tau P K * piece_W off P K h X + tails_S tau B (off + P * K) t h X
  end.
Lemma tails_split tau B e l : forall off h X,
  tails_error tau B e off l h X = (1 + 2 * u24) ^ e * tails_S tau B off l h X - tails_W B off l h X.
Proof.
  induction l as [|a l IH]; intros off h X; cbn [tails_error tails_S tails_W]; [ring|].
  rewrite IH. unfold piece_f, piece_W. rewrite (pow_add _ (_ + 3) e). ring.
Qed.
Lemma head_split delta N B e K h X :
  head_error delta N B e K h X = (1 + 2 * u24) ^ e * (head_f delta K * head_W N B K h X) - head_W N B K h X.
Proof. unfold head_error, head_f, head_W. rewrite (pow_add _ (_ + 3) e). ring. Qed.

Section Near.
  Variables (pow : R * R -> nat -> R * R).
  Notation F := (SingleWith pow).
  Variables (Rf : rfft F) (k : nat) (delta : R) (kt : nat) (tau : R).
  Hypothesis HR : rfft_accurate (@rfft_fwd F Rf) (@rfft_inv F Rf) k delta.
  Hypothesis Hdelta : 0 <= delta.
  Hypothesis Hpow : pow_accurate pow (@cis F) (@cis_neg F) kt tau.
  Hypothesis Htau : 0 <= tau <= / 4.
  Variables (n m : nat) (ir : audio Rarith).
  Hypothesis (Hn : (0 < n)%nat) (Hl : (0 < length ir)%nat) (Hm : (0 < m)%nat).
  Variables (c : nat).
  Notation h := (nth (c mod length ir) ir []).
  Hypothesis Hlen : (length h <= m)%nat.
  Variables (x : nat -> nat -> R) (X : R).
  Hypothesis HX : forall i, Rabs (x c i) + floor50 <= X.
  Notation hf := (fun j => nth j h 0).

  Lemma X_ge : floor50 <= X.
  Proof. specialize (HX 0%nat). pose proof (Rabs_pos (x c 0%nat)). lra. Qed.
  Lemma h_end j : (m <= j)%nat -> nth j h 0 = 0.
  Proof. intros. apply nth_overflow. lia. Qed.

  Lemma part_nonneg off P r a : 0 <= a -> 0 <= part_energy off P h r + a * floor50.
  Proof.
    intros Ha. pose proof floor_pos. apply Rplus_le_le_0_compat; [apply energy_nonneg|]. apply Rmult_le_pos; lra.
  Qed.

  Lemma piece_W_pos off P K : (0 < P)%nat -> (0 < K)%nat -> floor50 * floor50 <= piece_W off P K h X.
  Proof.
    intros HP HK. unfold piece_W. pose proof floor_pos as Fp. pose proof X_ge as Xp.
    assert (SP : 1 <= sqrt (INR P)) by (rewrite <- sqrt_1; apply sqrt_le_1_alt; change 1 with (INR 1); apply le_INR; lia).
    assert (HS : floor50 <= rsum K (fun r => part_energy off P h r + sqrt (INR P) * floor50)).
    { destruct K as [|K']; [lia|]. cbn [rsum].
      assert (0 <= rsum K' (fun r => part_energy off P h r + sqrt (INR P) * floor50)).
      { apply rsum_nonneg. intros r Hr. apply part_nonneg. lra. }
      assert (0 <= part_energy off P h K') by apply energy_nonneg. nra. }
    set (sm := rsum _ _) in *. assert (floor50 <= sqrt (INR P) * X) by nra. nra.
  Qed.
  Lemma head_W_floor N B K : (0 < N)%nat -> (0 < K)%nat -> floor50 * floor50 <= head_W N B K h X.
  Proof.
    intros HP HK. unfold head_W. pose proof floor_pos as Fp. pose proof X_ge as Xp.
    assert (SP : 1 <= sqrt (INR N)) by (rewrite <- sqrt_1; apply sqrt_le_1_alt; change 1 with (INR 1); apply le_INR; lia).
    assert (HS : floor50 <= rsum K (fun r => part_energy 0 B h r + sqrt (INR N) * floor50)).
    { destruct K as [|K']; [lia|]. cbn [rsum].
      assert (0 <= rsum K' (fun r => part_energy 0 B h r + sqrt (INR N) * floor50)).
      { apply rsum_nonneg. intros r Hr. apply part_nonneg. lra. }
      assert (0 <= part_energy 0 B h K') by apply energy_nonneg. nra. }
    set (sm := rsum _ _) in *. assert (floor50 <= sqrt (INR N) * X) by nra. nra.
  Qed.
  Lemma head_W_pos N B K : (0 < N)%nat -> 0 <= head_W N B K h X.
  Proof.
    intros HN. unfold head_W. pose proof floor_pos as Fp. pose proof X_ge as Xp. pose proof (sqrt_pos (INR N)).
    apply Rmult_le_pos; [lra|]. apply Rmult_le_pos; [apply Rmult_le_pos; lra|].
    apply rsum_nonneg. intros r Hr. apply part_nonneg. lra.
  Qed.
  Lemma head_f_ge1 K : 1 <= head_f delta K.
  Proof. pose proof u24_pos. apply ge1_mul; apply pow_R1_Rle; lra. Qed.
  Lemma piece_f_ge1 P K : 1 <= piece_f tau P K.
  Proof. pose proof u24_pos. apply ge1_mul; apply pow_R1_Rle; lra. Qed.

  (** the head *)
  Lemma head_near B Ku num off t v : (0 < B)%nat -> (0 < k)%nat -> (2 * B <= 2 ^ k)%nat -> (0 < Ku <= num)%nat ->
    off = Nat.min (num * B) m -> (off <= Ku * B)%nat ->
    @u_out F Rf ir B k Ku off x c t v ->
    nearR v (rsum off (fun j => nth j h 0 * @ago Rarith (x c) t j)) (head_W (2 ^ k) B num h X)
      (head_f delta num * head_W (2 ^ k) B num h X).
  Proof.
    intros HB Hk HF HKu Eoff HKo Hv. red in Hv.
    set (hu := @ir_fun F (@seg F ir 0 off)) in *.
    assert (Ehu : forall j, hu c j = if (j <? off)%nat then nth j h 0 else 0).
    { intros j. unfold hu. rewrite (@seg_fun F n m ir Hn Hl Hm). reflexivity. }
    assert (EE : forall r, energy B (fun q => hu c (r * B + q)%nat) <= part_energy 0 B h r).
    { intros r. apply sqrt_le_1_alt, rsum_le. intros q Hq. rewrite Ehu. cbn [Nat.add]. destruct (_ <? _)%nat; [apply Rle_refl|].
      rewrite Rmult_0_l. nra. }
    pose proof floor_pos as FP. pose proof X_ge as XP.
    set (sN := sqrt (INR (2 ^ k))). assert (SN : 0 <= sN) by apply sqrt_pos.
    set (SH := fun r => part_energy 0 B h r + sN * floor50).
    assert (SH0 : forall r, 0 <= SH r).
    { intros r. now apply part_nonneg. }
    pose proof (upc_out_near pow Rf k delta HR Hdelta B Ku hu x HB Hk HF (proj1 HKu) c X SH HX
      (fun r _ => Rplus_le_compat_r _ _ _ (EE r)) t v Hv) as G.
    assert (Efir : @fir Rarith (Ku * B) (hu c) (x c) t = rsum off (fun j => nth j h 0 * @ago Rarith (x c) t j)).
    { unfold fir. rewrite (@ssum_extend Rarith Rarith_laws off); [|lia|].
      - rewrite ssum_rsum. apply rsum_ext. intros j Hj. rewrite Ehu. destruct (Nat.ltb_spec j off); [reflexivity|lia].
      - intros j Hj. rewrite Ehu. destruct (Nat.ltb_spec j off); [lia|]. cbn. ring. }
    set (W := 2 * (sN * X * rsum Ku SH)).
    assert (HW : W <= head_W (2 ^ k) B num h X).
    { unfold W, head_W. fold sN. apply Rmult_le_compat_l; [lra|]. apply Rmult_le_compat_l; [apply Rmult_le_pos; lra|].
      apply (rsum_prefix Ku num SH); [lia|auto]. }
    apply nearR_scale with (w := W); [|apply head_f_ge1|exact HW].
    split.
    - rewrite <- Efir. eapply Rle_trans; [apply (fir_level Ku B (hu c) (x c) X t)|].
      + lra.
      + intros i. specialize (HX i). lra.
      + unfold W. assert (LE : rsum Ku (fun r => energy B (fun q => hu c (r * B + q)%nat)) <= rsum Ku SH).
        { apply rsum_le. intros r _. unfold SH. specialize (EE r). assert (0 <= sN * floor50) by (apply Rmult_le_pos; lra). lra. }
        assert (L0 : 0 <= rsum Ku (fun r => energy B (fun q => hu c (r * B + q)%nat))).
        { apply rsum_nonneg. intros. apply energy_nonneg. }
        assert (SB : 0 <= sqrt (INR B) <= sN) by (split; [apply sqrt_pos|apply sqrt_le_1_alt, le_INR; lia]).
        set (e1 := rsum Ku (fun r => energy B _)) in *. set (e2 := rsum Ku SH) in *.
        assert (sqrt (INR B) * X * e1 <= sN * X * e2).
        { apply Rmult_le_compat; auto; [apply Rmult_le_pos; lra|]. apply Rmult_le_compat_r; lra. }
        assert (0 <= sqrt (INR B) * X * e1) by (apply Rmult_le_pos; [apply Rmult_le_pos; lra|lra]). lra.
    - rewrite <- Efir. eapply Rle_trans; [exact G|]. fold sN. fold W.
      assert (W0 : 0 <= W).
      { unfold W. apply Rmult_le_pos; [lra|]. apply Rmult_le_pos; [apply Rmult_le_pos; lra|]. apply rsum_nonneg. auto. }
      replace (head_f delta num * W - W) with ((head_f delta num - 1) * W) by ring.
      apply Rmult_le_compat_r; [exact W0|]. apply Rplus_le_compat_r. unfold head_f.
      apply Rmult_le_compat_l; [apply pow_le; lra|].
      unfold ufac. pose proof u24_pos as U. rewrite pow_add.
      apply Rmult_le_compat; [apply pow_le; lra|lra|apply Rle_pow; [lra|lia]|]. unfold u24. simpl. lra.
  Qed.

  (** what is left of the convolution from [off] on *)
  Notation rest off t := (rsum (m - off) (fun j => nth (off + j) h 0 * @ago Rarith (x c) t (off + j))).

  Lemma piece_near b d num off t y : (0 < pc_s d)%nat -> (0 < @pc_K F d <= num)%nat ->
    off = (2 * (2 ^ pc_s d * 2 ^ b) + 2 ^ b)%nat -> (off < m)%nat ->
    (Nat.min (2 ^ pc_s d * num * 2 ^ b) (m - off) <= pc_K d * (2 ^ pc_s d * 2 ^ b))%nat ->
    (forall j, @pc_h F d c j = if (j <? Nat.min (2 ^ pc_s d * num * 2 ^ b) (m - off))%nat then nth (off + j) h 0 else 0) ->
    (2 * (2 ^ pc_s d * 2 ^ b) <= 2 ^ kt)%nat ->
    (2 ^ b <= t)%nat -> @p_out F b d x c (t - 2 ^ b) y ->
    nearR y (rest off t - rest (off + 2 ^ pc_s d * num * 2 ^ b) t)
      (piece_W off (2 ^ pc_s d * 2 ^ b) num h X)
      (piece_f tau (2 ^ pc_s d * 2 ^ b) num * piece_W off (2 ^ pc_s d * 2 ^ b) num h X).
  Proof.
    intros Hs HK Eoff Hoff HKo Eh Hkt Ht (p0 & ->).
    set (s := pc_s d) in *. set (K := @pc_K F d) in *. set (hp := @pc_h F d c) in *.
    set (size := (2 ^ s * num * 2 ^ b)%nat) in *. set (len := Nat.min size (m - off)) in *.
    assert (EP : (2 ^ (s + b) = 2 ^ s * 2 ^ b)%nat) by apply Nat.pow_add_r.
    set (P := (2 ^ s * 2 ^ b)%nat) in *.
    assert (HP : (0 < P)%nat) by (rewrite <- EP; apply pow2_pos).
    assert (Hsk : (S (s + b) <= kt)%nat).
    { apply (Nat.pow_le_mono_r_iff 2); [lia|]. cbn [Nat.pow]. lia. }
    pose proof floor_pos as FP. pose proof X_ge as XP.
    set (HL := fun r => part_energy off P h r + sqrt (INR P) * floor50).
    assert (HL0 : forall r, 0 <= HL r) by (intros; apply part_nonneg, sqrt_pos).
    assert (EE : forall r, energy P (fun q => hp (r * P + q)%nat) <= part_energy off P h r).
    { intros r. apply sqrt_le_1_alt, rsum_le. intros q Hq. rewrite Eh, <- Nat.add_assoc.
      destruct (_ <? _)%nat; [apply Rle_refl|]. rewrite Rmult_0_l. nra. }
    assert (N1 := tdy_near pow kt tau Hpow Htau b s K hp (x c) X HL p0 (t - 2 ^ b) (proj1 HK) Hsk HX).
    rewrite EP in N1. specialize (N1 (fun r _ => Rplus_le_compat_r _ _ _ (EE r))).
    assert (Ex : @tdy Rarith b s K hp p0 (x c) (t - 2 ^ b) = rest off t - rest (off + size) t).
    { rewrite (@tdy_exact Rarith b s 0 0 K hp ltac:(lia)); [|destruct s; [lia|]; cbn [Nat.pow]; pose proof (pow2_pos s); lia|lia|exact Rarith_laws].
      rewrite EP. rewrite (@ago_fir Rarith Rarith_laws), (@ssum_extend Rarith Rarith_laws len); [|lia|].
      - rewrite ssum_rsum.
        assert (ES : rest off t = rsum len (fun j => nth (off + j) h 0 * @ago Rarith (x c) t (off + j)) + rest (off + size) t).
        { replace (m - off)%nat with (len + (m - (off + size)))%nat by lia. rewrite rsum_app. f_equal.
          destruct (Nat.le_gt_cases size (m - off)).
          - replace len with size by lia. apply rsum_ext. intros j Hj. rewrite Nat.add_assoc. reflexivity.
          - replace (m - (off + size))%nat with 0%nat by lia. reflexivity. }
        rewrite ES. ring_simplify. apply rsum_ext. intros j Hj. rewrite Eh. destruct (Nat.ltb_spec j len); [|lia].
        exact (f_equal (Rmult (nth (off + j) h 0)) (@ago_eq Rarith (x c) (t - 2 ^ b) (2 * P + j) t (off + j) ltac:(lia))).
      - intros j Hj. rewrite Eh. destruct (Nat.ltb_spec j len); [lia|]. cbn. ring. }
    rewrite Ex in N1.
    assert (HW : 2 * level b s K X HL <= piece_W off P num h X).
    { unfold level, piece_W. rewrite EP. apply Rmult_le_compat_l; [lra|]. apply Rmult_le_compat_l.
      - apply Rmult_le_pos; [apply sqrt_pos|lra].
      - apply (rsum_prefix K num HL); [lia|auto]. }
    pose proof u24_pos as U.
    assert (Ef : efac tau b s K <= piece_f tau P num).
    { unfold efac, piece_f.
      assert (E2 : Nat.log2 (2 * P) = S (s + b)).
      { rewrite <- EP. change (2 * 2 ^ (s + b))%nat with (2 ^ S (s + b))%nat. apply Nat.log2_pow2. lia. }
      rewrite E2. unfold gfac. apply Rmult_le_compat_l; [apply pow_le; lra|]. apply Rle_pow; [lra|lia]. }
    apply nearR_scale with (w := 2 * level b s K X HL); [|apply piece_f_ge1|exact HW].
    eapply nearR_weaken; [exact N1|]. apply Rmult_le_compat_r; [|exact Ef].
    apply Rmult_le_pos; [lra|]. unfold level. apply Rmult_le_pos; [apply Rmult_le_pos; [apply sqrt_pos|lra]|].
    apply rsum_nonneg. auto.
  Qed.

  (** the sum of the pieces *)
  Lemma tails_nonneg B : forall l off, 0 <= tails_W B off l h X <= tails_S tau B off l h X.
  Proof.
    induction l as [|a l IH]; intros off; cbn [tails_W tails_S]; [lra|].
    set (P := (Z.to_nat (pl_size a) * B)%nat). set (K := Z.to_nat (pl_num a)).
    specialize (IH (off + P * K)%nat). pose proof (piece_f_ge1 P K).
    assert (0 <= piece_W off P K h X).
    { unfold piece_W. pose proof X_ge. pose proof floor_pos. pose proof (sqrt_pos (INR P)).
      apply Rmult_le_pos; [lra|]. apply Rmult_le_pos; [apply Rmult_le_pos; lra|].
      apply rsum_nonneg. intros. apply part_nonneg. lra. }
    nra.
  Qed.

  Lemma accs_near b t v : (2 ^ b <= t)%nat -> forall l ds off a a' wa sa,
    (forall q, In q l -> 2 * (Z.to_nat (pl_size q) * 2 ^ b) <= 2 ^ kt)%nat ->
    @pieces F m ir (2 ^ b) off l ds -> @accs F _ (2 ^ b) (@p_out F b) x ds c t a v ->
    nearR a a' wa sa ->
    nearR v (a' + rest off t) (wa + tails_W (2 ^ b) off l h X)
      ((1 + u24) ^ length l * (sa + tails_S tau (2 ^ b) off l h X)).
  Proof.
    intros Ht. pose proof (pow2_pos b) as HB. pose proof u24_pos as U.
    induction l as [|a0 l IH]; intros [|d ds] off a a' wa sa Hkt Hp Hacc Ha; cbn [pieces] in Hp; try tauto.
    - cbn [accs] in Hacc. subst v. cbn [tails_W tails_S length]. replace (m - off)%nat with 0%nat by lia. cbn [rsum].
      simpl. rewrite !Rplus_0_r, Rmult_1_l. exact Ha.
    - destruct Hp as (num & Hs & Hnum & (HK & _) & Esz & En & Hoff & Eoff & HKo & Eh & Hp).
      cbn [accs] in Hacc. destruct Hacc as (y & Hy & Hacc).
      pose proof (Hkt a0 (or_introl eq_refl)) as Hk0. rewrite Esz, Nat2Z.id in Hk0.
      assert (Ny := piece_near b d num off t y Hs HK Eoff Hoff HKo (fun j => Eh c j) Hk0 Ht Hy).
      cbn [tails_W tails_S length]. rewrite Esz, En, !Nat2Z.id.
      replace (2 ^ pc_s d * num * 2 ^ b)%nat with (2 ^ pc_s d * 2 ^ b * num)%nat in * by ring.
      set (P := (2 ^ pc_s d * 2 ^ b)%nat) in *.
      assert (HP : (0 < P)%nat) by (unfold P; pose proof (pow2_pos (pc_s d)); nia).
      pose proof (piece_W_pos off P num HP Hnum) as PW. pose proof floor_sq as FS. pose proof phi_pos as PP.
      destruct (nearR_le _ _ _ _ Ha) as [La _].
      assert (NA := nearR_add pow a a' y _ wa sa _ _ Ha Ny ltac:(lra)).
      pose proof (IH ds _ _ _ _ _ (fun q Hq => Hkt q (or_intror Hq)) Hp Hacc NA) as G.
      set (w1 := piece_W off P num h X) in *. set (f1 := piece_f tau P num) in *.
      set (WT := tails_W (2 ^ b) (off + P * num) l h X) in *.
      pose proof (tails_nonneg (2 ^ b) l (off + P * num)) as TN.
      set (ST := tails_S tau (2 ^ b) (off + P * num) l h X) in *. fold WT in TN.
      replace (a' + rest off t) with (a' + (rest off t - rest (off + P * num) t) + rest (off + P * num) t) by ring.
      replace (wa + (w1 + WT)) with (wa + w1 + WT) by ring.
      eapply nearR_weaken; [exact G|]. replace ((1 + u24) ^ S (length l) * (sa + (f1 * w1 + ST))) with ((1 + u24) ^ length l * ((1 + u24) * (sa + f1 * w1 + ST))) by (simpl; ring).
      apply Rmult_le_compat_l; [apply pow_le; lra|]. nra.
  Qed.

  Lemma out_near B b Ku a l ds t v : (0 < B)%nat -> (0 < k)%nat -> (2 * B <= 2 ^ k)%nat -> (0 < pl_num a)%Z ->
    (0 < Ku <= Z.to_nat (pl_num a))%nat ->
    (forall q, In q l -> 2 * (Z.to_nat (pl_size q) * B) <= 2 ^ kt)%nat ->
    let off := Nat.min (Z.to_nat (pl_num a) * B) m in
    (l = [] \/ off = Z.to_nat (pl_num a) * B)%nat -> (off <= Ku * B)%nat ->
    @pieces F m ir B off l ds -> (ds = [] \/ B = 2 ^ b)%nat ->
    @output F Rf ir B b k Ku off ds x c t v ->
    nearR v (@fir Rarith m hf (x c) t)
      (head_W (2 ^ k) B (Z.to_nat (pl_num a)) h X + tails_W B (Z.to_nat (pl_num a) * B) l h X)
      ((1 + 2 * u24) ^ length (a :: l) *
       (head_f delta (Z.to_nat (pl_num a)) * head_W (2 ^ k) B (Z.to_nat (pl_num a)) h X
        + tails_S tau B (Z.to_nat (pl_num a) * B) l h X)).
  Proof.
    intros HB Hk HF Hnum HKu Hkt off Hlo HKo Hp HBb (vu & Hvu & Hv). set (num := Z.to_nat (pl_num a)) in *.
    pose proof u24_pos as U. pose proof phi_pos as PP.
    pose proof (head_near B Ku num off t vu HB Hk HF HKu eq_refl HKo Hvu) as NU.
    assert (Efir : @fir Rarith m hf (x c) t = rsum off (fun j => nth j h 0 * @ago Rarith (x c) t j) + rest off t).
    { unfold fir. rewrite ssum_rsum. replace m with (off + (m - off))%nat at 1 by lia. rewrite rsum_app. reflexivity. }
    pose proof (head_W_pos (2 ^ k) B num (pow2_pos k)) as HW0. pose proof (head_f_ge1 num) as HF1.
    set (W := head_W (2 ^ k) B num h X) in *. set (fh := head_f delta num) in *.
    destruct ds as [|d ds].
    - subst v. destruct l as [|a1 l]; [|destruct Hp]. cbn [pieces] in Hp. cbn [tails_W tails_S length].
      rewrite Efir. replace (m - off)%nat with 0%nat by lia. cbn [rsum]. rewrite !Rplus_0_r.
      eapply nearR_weaken; [exact NU|]. simpl. assert (0 <= fh * W) by nra. nra.
    - destruct l as [|a1 l]; [destruct Hp|]. destruct Hlo as [Hc|Eo]; [discriminate|]. destruct HBb as [Hc|EB]; [discriminate|].
      subst B. destruct Hv as (vr & Hr & Ev).
      assert (Hp0 := Hp). destruct Hp0 as (num1 & Hs & Hnum1 & HK1 & Esz & En & Hoff & Eoff & _).
      pose proof (piece_W_pos off (2 ^ pc_s d * 2 ^ b) num1) as PW.
      specialize (PW ltac:(pose proof (pow2_pos (pc_s d)); nia) Hnum1). pose proof floor_sq as FS.
      pose proof (tails_nonneg (2 ^ b) (a1 :: l) off) as TN.
      assert (TW : phi <= tails_W (2 ^ b) off (a1 :: l) h X).
      { cbn [tails_W]. rewrite Esz, En, !Nat2Z.id.
        pose proof (tails_nonneg (2 ^ b) l (off + 2 ^ pc_s d * 2 ^ b * num1)). lra. }
      assert (NR : nearR vr (rest off t) (tails_W (2 ^ b) off (a1 :: l) h X)
                     ((1 + u24) ^ length (a1 :: l) * tails_S tau (2 ^ b) off (a1 :: l) h X)).
      { unfold rcell in Hr. destruct (Nat.ltb_spec t (2 ^ b)) as [Htb|Htb].
        - assert (E0 : rest off t = 0).
          { transitivity (rsum (m - off) (fun _ => 0)); [|rewrite rsum_const; ring]. apply rsum_ext. intros j Hj.
            rewrite (@ago_before Rarith) by lia. cbn. ring. }
          rewrite E0, Hr. split.
          + rewrite Rabs_R0. lra.
          + assert (1 <= (1 + u24) ^ length (a1 :: l)) by (apply pow_R1_Rle; lra).
            replace (Rabs (@s0 F - 0)) with 0 by (change (0 = Rabs (0 - 0)); rewrite Rminus_0_r, Rabs_R0; reflexivity). nra.
        - assert (NR0 : nearR (@s0 F) 0 0 0) by (split; [rewrite Rabs_R0; lra|]; change (Rabs (0 - 0) <= 0 - 0); rewrite Rminus_0_r, Rabs_R0; lra).
          pose proof (accs_near b t vr Htb (a1 :: l) (d :: ds) off (@s0 F) 0 0 0 Hkt Hp Hr NR0) as G.
          rewrite !Rplus_0_l in G. exact G. }
      assert (NA := nearR_add pow vu _ vr _ _ _ _ _ NU NR ltac:(lra)).
      rewrite Efir, Ev. rewrite Eo in *. set (WT := tails_W _ _ _ _ _) in *. set (ST := tails_S _ _ _ _ _ _) in *.
      eapply nearR_weaken; [exact NA|].
      change (length (a :: a1 :: l)) with (S (length (a1 :: l))). rewrite <- tech_pow_Rmult, Rmult_assoc.
      assert (P1 : 1 <= (1 + 2 * u24) ^ length (a1 :: l)) by (apply pow_R1_Rle; lra).
      assert (P2 : 0 <= (1 + u24) ^ length (a1 :: l) <= (1 + 2 * u24) ^ length (a1 :: l)).
      { split; [apply pow_le; lra|apply pow_incr; lra]. }
      set (q := (1 + 2 * u24) ^ length (a1 :: l)) in *. set (q' := (1 + u24) ^ length (a1 :: l)) in *.
      assert (0 <= fh * W) by nra.
      apply Rmult_le_compat; [lra|nra|lra|]. nra.
  Qed.
End Near.

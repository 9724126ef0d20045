(** * The IEEE operations and rounded real numbers agree where nothing overflows *)
From Coq Require Import Reals Lra ZArith Floats.SpecFloat.
From Flocq Require Import Core BinarySingleNaN.
From Verif.Model Require Import Base Arith ArithSingle ArithIEEE.
From Verif.Spec Require Import Overflow.
From Verif.Proofs Require Import Ext.
Open Scope R_scope.

#[local] Instance P24 : FLX.Prec_gt_0 24. Proof. reflexivity. Qed.
#[local] Instance P128 : Prec_lt_emax 24 128. Proof. reflexivity. Qed.
Notation b32 := (binary_float 24 128).

Lemma round_even_eq s m l : SpecFloat.round_nearest_even m l = choice_mode mode_NE s m l.
Proof. destruct l as [|[]]; try reflexivity. now simpl; unfold Round.cond_incr; case Z.even. Qed.
Lemma round_aux_eq sx mx ex lx : SpecFloat.binary_round_aux 24 128 sx mx ex lx = binary_round_aux 24 128 mode_NE sx mx ex lx.
Proof.
  unfold SpecFloat.binary_round_aux, binary_round_aux. destruct (shr_fexp _ _ _) as [mrs' e']. cbn [fst snd].
  now rewrite (round_even_eq sx).
Qed.
Lemma round_eq s m e : SpecFloat.binary_round 24 128 s m e = binary_round 24 128 mode_NE s m e.
Proof. unfold SpecFloat.binary_round, binary_round, shl_align_fexp. destruct (shl_align _ _ _). apply round_aux_eq. Qed.
Lemma normalize_eq m e z : SpecFloat.binary_normalize 24 128 m e z = B2SF (binary_normalize 24 128 P24 P128 mode_NE m e z).
Proof. destruct m; [reflexivity| |]; simpl; rewrite B2SF_SF2B; apply round_eq. Qed.
Lemma SFadd_eq (x y : b32) : SFadd 24 128 (B2SF x) (B2SF y) = B2SF (Bplus mode_NE x y).
Proof. destruct x, y; try reflexivity; try (simpl; destruct (Bool.eqb _ _); reflexivity). apply normalize_eq. Qed.
Lemma SFsub_eq (x y : b32) : SFsub 24 128 (B2SF x) (B2SF y) = B2SF (Bminus mode_NE x y).
Proof.
  destruct x, y; try reflexivity; try (simpl; destruct (Bool.eqb _ _); reflexivity). simpl. unfold Zminus. rewrite <- cond_Zopp_negb. apply normalize_eq.
Qed.
Lemma SFmul_eq (x y : b32) : SFmul 24 128 (B2SF x) (B2SF y) = B2SF (Bmult mode_NE x y).
Proof. destruct x, y; try reflexivity. simpl. rewrite B2SF_SF2B. apply round_aux_eq. Qed.

Lemma number_B x r : number x r -> exists X : b32, x = B2SF X /\ is_finite X = true /\ B2R X = r.
Proof.
  intros (H1 & H2 & H3). exists (SF2B x H1). rewrite B2SF_SF2B. split; [reflexivity|]. split.
  - rewrite is_finite_SF2B. exact H2.
  - rewrite B2R_SF2B. exact H3.
Qed.
Lemma B_number (X : b32) : is_finite X = true -> number (B2SF X) (B2R X).
Proof.
  intros H. split; [apply valid_binary_B2SF|]. split; [now rewrite is_finite_SF_B2SF|apply SF2R_B2SF].
Qed.
Lemma fits_range z : Rabs (single z) <= big -> Rlt_bool (Rabs (single z)) (bpow radix2 128) = true.
Proof.
  intros H. apply Rlt_bool_true. eapply Rle_lt_trans; [exact H|]. unfold big.
  replace (2 ^ 127) with (bpow radix2 127); [apply bpow_lt; lia|]. rewrite bpow_powerRZ. change 127%Z with (Z.of_nat 127).
  rewrite <- pow_powerRZ. reflexivity.
Qed.
Lemma number_add x y a b : number x a -> number y b -> Rabs (single (a + b)) <= big -> number (SFadd 24 128 x y) (single (a + b)).
Proof.
  intros Hx Hy H. destruct (number_B _ _ Hx) as (X & -> & FX & <-). destruct (number_B _ _ Hy) as (Y & -> & FY & <-).
  pose proof (Bplus_correct 24 128 _ _ mode_NE X Y FX FY) as C.
  change (round radix2 (SpecFloat.fexp 24 128) (round_mode mode_NE) ?z) with (single z) in C.
  rewrite fits_range in C by exact H. destruct C as (C1 & C2 & _). rewrite SFadd_eq, <- C1. now apply B_number.
Qed.
Lemma number_sub x y a b : number x a -> number y b -> Rabs (single (a - b)) <= big -> number (SFsub 24 128 x y) (single (a - b)).
Proof.
  intros Hx Hy H. destruct (number_B _ _ Hx) as (X & -> & FX & <-). destruct (number_B _ _ Hy) as (Y & -> & FY & <-).
  pose proof (Bminus_correct 24 128 _ _ mode_NE X Y FX FY) as C.
  change (round radix2 (SpecFloat.fexp 24 128) (round_mode mode_NE) ?z) with (single z) in C.
  rewrite fits_range in C by exact H. destruct C as (C1 & C2 & _). rewrite SFsub_eq, <- C1. now apply B_number.
Qed.
Lemma number_mul x y a b : number x a -> number y b -> Rabs (single (a * b)) <= big -> number (SFmul 24 128 x y) (single (a * b)).
Proof.
  intros Hx Hy H. destruct (number_B _ _ Hx) as (X & -> & FX & <-). destruct (number_B _ _ Hy) as (Y & -> & FY & <-).
  pose proof (Bmult_correct 24 128 _ _ mode_NE X Y) as C.
  change (round radix2 (SpecFloat.fexp 24 128) (round_mode mode_NE) ?z) with (single z) in C.
  rewrite fits_range in C by exact H. destruct C as (C1 & C2 & _). rewrite FX, FY in C2. rewrite SFmul_eq, <- C1. now apply B_number.
Qed.
Lemma number_0 : number (S754_zero false) 0.
Proof. repeat split. Qed.
Lemma number_half : number (SFdiv 24 128 (ieee_of_nat 1) (ieee_of_nat 2)) (1 / 2).
Proof. split; [vm_compute; reflexivity|]. split; [vm_compute; reflexivity|]. vm_compute SFdiv. unfold SF2R, F2R. cbn. lra. Qed.

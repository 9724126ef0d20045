(** * Library functions that meet the contracts of Overflow.v *)
From Coq Require Import Reals Lra Lia ZArith Floats.SpecFloat.
From Flocq Require Import Core BinarySingleNaN.
From Verif.Model Require Import Base Arith ArithReal ArithSingle ArithIEEE Juce.
From Verif.Spec Require Import Transform Signal Precision Memory Overflow.
From Verif.Proofs Require Import Lists ComplexAlg Butterfly FFTProof RealFFTProof Norms SingleProof SingleFFT SingleRoots SingleReal Ext IEEESingle.
Open Scope R_scope.

#[local] Existing Instance P24.
(** ** numbers a [float] can hold *)
Definition holds (r : R) : Prop := single r = r.
(** the [float] of value [r] *)
Definition of_real (r : R) : spec_float :=
  B2SF (binary_normalize 24 128 P24 P128 mode_NE (Ztrunc (scaled_mantissa radix2 (SpecFloat.fexp 24 128) r))
          (cexp radix2 (SpecFloat.fexp 24 128) r) false).
Lemma of_real_number r : holds r -> Rabs r <= big -> number (of_real r) r.
Proof.
  intros Hr Hb. unfold of_real. set (m := Ztrunc _). set (e := cexp _ _ _).
  assert (G : generic_format radix2 (SpecFloat.fexp 24 128) r).
  { red in Hr. rewrite <- Hr. unfold single. change (SpecFloat.fexp 24 128) with (FLT_exp (-149) 24). apply generic_format_round; [apply FLT_exp_valid; exact P24|apply valid_rnd_N]. }
  assert (E : F2R (Float radix2 m e) = r) by (symmetry; exact G).
  pose proof (binary_normalize_correct 24 128 P24 P128 mode_NE m e false) as C. cbv zeta in C. rewrite E in C.
  change (round radix2 (SpecFloat.fexp 24 128) (round_mode mode_NE) r) with (single r) in C.
  rewrite fits_range in C by (red in Hr; now rewrite Hr). destruct C as (C1 & C2 & _).
  assert (E2 : r = B2R (binary_normalize 24 128 P24 P128 mode_NE m e false)) by (rewrite C1; now red in Hr).
  clearbody m e. rewrite E2. now apply B_number.
Qed.
Lemma number_holds x r : number x r -> holds r.
Proof.
  intros H. destruct (number_B _ _ H) as (X & -> & _ & <-). red. apply single_id. exact (generic_format_B2R 24 128 X).
Qed.
Lemma number_val x r : number x r -> SF2R radix2 x = r. Proof. intros H. apply H. Qed.
Lemma holds_single z : holds (single z). Proof. apply single_single. Qed.
Lemma holds_0 : holds 0. Proof. apply single_0. Qed.
Lemma holds_opp z : holds z -> holds (- z). Proof. unfold holds. intros H. now rewrite single_opp, H. Qed.
Lemma SF2R_opp x : SF2R radix2 (SFopp x) = - SF2R radix2 x.
Proof.
  destruct x as [s|s| |s m e]; cbn [SFopp SF2R]; try lra. unfold F2R. cbn [Fnum Fexp]. rewrite Ropp_mult_distr_l, <- opp_IZR. f_equal. f_equal. now destruct s.
Qed.

(** ** powers of roots *)
(** the exact power of the rounded root, rounded *)
Definition rounded_power (z : R * R) (e : nat) : R * R := (single (fst (exact_power z e)), single (snd (exact_power z e))).
Notation F := (SingleWith rounded_power).
Definition tau12 : R := 3 * 4096 * u24 + 2 * u24.
Lemma root_close j e : (j < 12)%nat -> (e < 2 ^ j)%nat ->
  cdist (rounded_power (@cis_neg F (2 * 2 ^ j)%nat) e) (@cpow Rarith (@cis_neg Rarith (2 * 2 ^ j)) e) <= tau12 /\
  cdist (rounded_power (@cis F (2 * 2 ^ j)%nat) e) (@cpow Rarith (@cis Rarith (2 * 2 ^ j)) e) <= tau12.
Proof.
  intros Hj He. assert (H12 : (12 <= 20)%nat) by lia. destruct (exact_power_accurate 12 H12 j e Hj He) as [H1 H2].
  assert (E : INR (2 ^ 12) = 4096) by (rewrite pow_INR; change (INR 2) with 2; lra). rewrite E in *.
  assert (Hn : (0 < 2 * 2 ^ j)%nat) by (pose proof (Nat.pow_nonzero 2 j); lia).
  assert (G : forall z v, modulus v = 1 -> cdist (exact_power z e) v <= 3 * 4096 * u24 -> cdist (rounded_power z e) v <= tau12).
  { intros z v Hv Hd. unfold rounded_power. set (p := exact_power z e) in *.
    pose proof (cdist_bound p v) as B. rewrite Hv in B. pose proof (modulus_fst p) as M1. pose proof (modulus_snd p) as M2.
    assert (B2 : modulus p < 2) by (unfold u24 in *; lra).
    eapply Rle_trans; [apply (cdist_tri _ p)|]. unfold tau12. rewrite Rplus_comm. apply Rplus_le_compat; [exact Hd|].
    eapply Rle_trans; [apply (modulus_parts _ u24); cbn [fst snd]; apply single_err2; lra|]. unfold u24; lra. }
  split; apply G; auto; [apply unit_root_neg|apply unit_root]; exact Hn.
Qed.
Lemma rounded_power_accurate k : (k <= 12)%nat -> pow_accurate rounded_power (@cis F) (@cis_neg F) k tau12.
Proof. intros Hk j e Hj He. apply root_close; [lia|exact He]. Qed.
Lemma tau12_range : 0 <= tau12 <= / 4. Proof. unfold tau12, u24. lra. Qed.
Lemma growth k : (k <= 12)%nat -> 1 <= (1 + gfac tau12) ^ k <= 4 / 3.
Proof.
  intros Hk. split; [apply (c_ge1 tau12 tau12_range)|].
  assert (P : 0 <= gfac tau12) by apply (g_pos tau12 tau12_range).
  pose proof (power_cap (gfac tau12) k P) as C. assert (Ik : INR k <= 12) by (rewrite INR_IZR_INZ; apply IZR_le; lia).
  pose proof (pos_INR k). unfold gfac, tau12 in *. 
  assert (B : 3 * 4096 * u24 + 2 * u24 + 12 * u24 <= / 1000) by (unfold u24; lra).
  set (g := 3 * 4096 * u24 + 2 * u24 + 12 * u24) in *.
  assert (INR k * g <= 12 * / 1000) by (apply Rmult_le_compat; lra).
  specialize (C ltac:(lra)). lra.
Qed.

(** ** the transform *)
Notation T := (@fast_rfft F).
Definition cholds (z : R * R) : Prop := holds (fst z) /\ holds (snd z).
Lemma cholds_add a b : cholds (@cadd F a b). Proof. split; apply holds_single. Qed.
Lemma cholds_sub a b : cholds (@csub F a b). Proof. split; apply holds_single. Qed.
Lemma cholds_mul a b : cholds (@cmul F a b). Proof. split; apply holds_single. Qed.
Lemma cholds_scale a b : cholds (@cscale F a b). Proof. split; apply holds_single. Qed.
Lemma in_tab {X} n (f : nat -> X) x : In x (tab n f) -> exists i, (i < n)%nat /\ x = f i.
Proof. unfold tab. intros H. apply in_map_iff in H as (i & <- & Hi). apply in_seq in Hi. exists i. split; [lia|reflexivity]. Qed.
Lemma dif_holds k : forall x : list (R * R), (forall z, In z x -> cholds z) -> forall z, In z (@dif F k x) -> cholds z.
Proof.
  induction k as [|k IH]; intros x Hx z Hz; [now apply Hx|]. cbn [dif] in Hz. apply in_app_or in Hz as [Hz|Hz]; eapply IH; try exact Hz.
  - intros y Hy. apply in_tab in Hy as (i & _ & ->). apply cholds_add.
  - intros y Hy. apply in_tab in Hy as (i & _ & ->). apply cholds_mul.
Qed.
Lemma dif_holds_S k (x : list (R * R)) z : (0 < k)%nat -> In z (@dif F k x) -> cholds z.
Proof.
  destruct k as [|k]; [lia|]. intros _ Hz. cbn [dif] in Hz. apply in_app_or in Hz as [Hz|Hz]; eapply dif_holds; try exact Hz.
  - intros y Hy. apply in_tab in Hy as (i & _ & ->). apply cholds_add.
  - intros y Hy. apply in_tab in Hy as (i & _ & ->). apply cholds_mul.
Qed.
Lemma idif_holds k (x : list (R * R)) z : (0 < k)%nat -> In z (@idif F k x) -> cholds z.
Proof.
  destruct k as [|k]; [lia|]. intros _ Hz. cbn [idif] in Hz. unfold merge in Hz.
  apply in_app_or in Hz as [Hz|Hz]; apply in_tab in Hz as (i & _ & ->); cbv zeta; first [apply cholds_scale|apply cholds_mul|apply cholds_sub].
Qed.
Lemma in_flat (l : list (R * R)) y : In y (@flat F l) -> exists z, In z l /\ (y = fst z \/ y = snd z).
Proof.
  induction l as [|z l IH]; [intros []|]. cbn. intros [<-|[<-|H]]; [exists z; auto|exists z; auto|].
  destruct (IH H) as (w & Hw & E). exists w; auto.
Qed.
Lemma fwd_in k d y : (0 < k)%nat -> In y (@rfft_fwd F T k d) ->
  exists z i, (i < 2 ^ k)%nat /\ z = nth i (@dif F k (map (@creal F) (firstn (2 ^ k) d))) (0, 0) /\ (y = fst z \/ y = snd z).
Proof.
  intros Hk Hy. cbn [rfft_fwd fast_rfft] in Hy. apply in_flat in Hy as (z & Hz & E). apply in_tab in Hz as (b & Hb & ->).
  eexists _, (bitrev k b). split; [apply bitrev_lt|]. split; [reflexivity|exact E].
Qed.
Lemma fwd_holds k d y : (0 < k)%nat -> In y (@rfft_fwd F T k d) -> holds y.
Proof.
  intros Hk Hy. destruct (fwd_in k d y Hk Hy) as (z & i & _ & E & H).
  assert (C : cholds z).
  { rewrite E. set (l := @dif F k _). destruct (nth_in_or_default i l (0, 0)) as [H1|H1].
    - eapply dif_holds_S; [exact Hk|exact H1].
    - rewrite H1. split; apply holds_0. }
  destruct H as [->| ->]; apply C.
Qed.
Lemma inv_in k d y : In y (@rfft_inv F T k d) -> y = 0 \/
  exists z, In z (@idif F k (tab (2 ^ k) (fun p => @herm F (2 ^ k) (@pairs F d) (bitrev k p)))) /\ y = fst z.
Proof.
  cbn [rfft_inv fast_rfft ref_rfft]. intros H. apply in_app_or in H as [H|H].
  - right. apply in_map_iff in H as (z & <- & Hz). now exists z.
  - left. now apply repeat_spec in H.
Qed.
Lemma inv_holds k d y : (0 < k)%nat -> In y (@rfft_inv F T k d) -> holds y.
Proof.
  intros Hk Hy. destruct (inv_in k d y Hy) as [->|(z & Hz & ->)]; [apply holds_0|]. eapply idif_holds; eauto.
Qed.

Lemma energy_one n f i : (i < n)%nat -> Rabs (f i) <= energy n f.
Proof.
  intros Hi. apply sq_le; [apply energy_nonneg|]. rewrite energy_sq. 
  replace (Rabs (f i) * Rabs (f i)) with (f i * f i) by (rewrite <- Rabs_mult, Rabs_pos_eq; nra).
  clear - Hi. induction n as [|n IH]; [lia|]. cbn [rsum]. destruct (Nat.eq_dec i n) as [->|Hn].
  - pose proof (sq_nonneg n f). lra.
  - specialize (IH ltac:(lia)). nra.
Qed.
Lemma fwd_bounded k d M : (0 < k <= 12)%nat -> length d = (2 * 2 ^ k)%nat -> 1 <= M -> (forall x, In x d -> Rabs x <= M) ->
  forall y, In y (@rfft_fwd F T k d) -> Rabs y <= 2 * 2 ^ k * M.
Proof.
  intros Hk Hd HM H y Hy. destruct (fwd_in k d y ltac:(lia) Hy) as (z & i & Hi & E & Hz).
  assert (Hyz : Rabs y <= modulus z) by (destruct Hz as [->| ->]; [apply modulus_fst|apply modulus_snd]).
  eapply Rle_trans; [exact Hyz|]. clear Hyz Hz Hy y.
  set (l := map (@creal F) (firstn (2 ^ k) d)) in *.
  assert (Ll : length l = (2 ^ k)%nat) by (unfold l; rewrite map_length, firstn_length, Hd; lia).
  assert (En : en (2 ^ k) l <= rN k * M).
  { unfold en, rN. rewrite <- energy_const by lra. apply energy_le. intros p Hp. split; [apply modulus_nonneg|].
    assert (E1 : nth p l (0, 0) = (nth p d 0, 0)).
    { unfold l. transitivity (@creal F (nth p (firstn (2 ^ k) d) 0)).
      - change (0, 0) with (@creal F 0). apply map_nth.
      - rewrite nth_firstn'. destruct (Nat.ltb_spec p (2 ^ k)); [reflexivity|lia]. }
    assert (E2 : modulus (nth p l (0, 0)) = Rabs (nth p d 0)) by (rewrite E1; apply modulus_creal).
    eapply Rle_trans; [right; exact E2|]. apply H, nth_In. rewrite Hd. lia. }
  pose proof (dif_err rounded_power k tau12 (rounded_power_accurate k ltac:(lia)) tau12_range k (le_n k) l l Ll Ll) as D.
  assert (Z0 : er (2 ^ k) l l = 0).
  { unfold er. rewrite (energy_ext _ _ (fun _ => 0)); [|intros; apply cdist_same]. rewrite energy_const by lra. ring. }
  rewrite Z0 in D.
  pose proof (dif_energy k l Ll) as DE.
  assert (M1 : modulus (nth i (@dif Rarith k l) (0, 0)) <= en (2 ^ k) (@dif Rarith k l)).
  { pose proof (energy_one (2 ^ k) (fun i => modulus (nth i (@dif Rarith k l) (0, 0))) i Hi) as G. cbn beta in G.
    rewrite Rabs_pos_eq in G by apply modulus_nonneg. exact G. }
  assert (M2 : cdist z (nth i (@dif Rarith k l) (0, 0)) <= er (2 ^ k) (@dif F k l) (@dif Rarith k l)).
  { pose proof (energy_one (2 ^ k) (fun i => cdist (nth i (@dif F k l) (0, 0)) (nth i (@dif Rarith k l) (0, 0))) i Hi) as G. cbn beta in G.
    rewrite Rabs_pos_eq in G by apply cdist_nonneg. rewrite E. exact G. }
  pose proof (cdist_bound z (nth i (@dif Rarith k l) (0, 0))) as M3.
  pose proof (growth k ltac:(lia)) as [G1 G2]. set (c := (1 + gfac tau12) ^ k) in *.
  pose proof (rN_pos k) as RP. pose proof (rN_sq k) as RS. rewrite pow_INR in RS. change (INR 2) with 2 in RS.
  assert (P1 : phi <= 1) by (pose proof floor_phi; pose proof phi_pos; unfold floor50 in *; lra).
  pose proof phi_pos as P0.
  set (r := rN k) in *. set (e0 := en (2 ^ k) l) in *. assert (E0 : 0 <= e0) by apply en_nonneg.
  assert (S1 : r * e0 <= r * (r * M)) by (apply Rmult_le_compat_l; lra).
  assert (S2 : r * phi <= r * 1) by (apply Rmult_le_compat_l; lra).
  assert (S3 : r * (r * phi) <= r * (r * 1)) by (apply Rmult_le_compat_l; lra).
  assert (S4 : (c - 1) * (r * (e0 + r * phi)) <= / 3 * (r * (r * M) + r * (r * 1))).
  { apply Rmult_le_compat; try lra. assert (0 <= r * phi) by (apply Rmult_le_pos; lra). apply Rmult_le_pos; lra. }
  rewrite <- RS. assert (S5 : r * r * 1 <= r * r * M) by (apply Rmult_le_compat_l; [apply Rmult_le_pos; lra|lra]).
  assert (D' : er (2 ^ k) (@dif F k l) (@dif Rarith k l) <= (c - 1) * (r * (e0 + r * phi))) by (eapply Rle_trans; [exact D|right; ring]).
  eapply Rle_trans; [exact M3|]. eapply Rle_trans; [apply Rplus_le_compat; [eapply Rle_trans; [exact M1|right; exact DE]|eapply Rle_trans; [exact M2|exact D']]|].
  assert (0 <= r * r) by (apply Rmult_le_pos; lra). lra.
Qed.
Lemma pairs_in M : forall l : list R, 0 <= M -> (forall x, In x l -> Rabs x <= M) -> forall z, In z (@pairs F l) -> modulus z <= 3 / 2 * M.
Proof.
  fix FF 1. intros [|a [|b l]] HM H z Hz; try destruct Hz. 
  - subst z. apply modulus_parts; apply H; cbn; auto.
  - apply (FF l HM); auto. intros x Hx. apply H. cbn; auto.
Qed.
Lemma inv_bounded k d M : (0 < k <= 12)%nat -> length d = (2 * 2 ^ k)%nat -> 1 <= M -> (forall x, In x d -> Rabs x <= M) ->
  forall y, In y (@rfft_inv F T k d) -> Rabs y <= 2 * 2 ^ k * M.
Proof.
  intros Hk Hd HM H y Hy.
  assert (K2 : 2 <= 2 ^ k) by (rewrite <- (pow_1 2) at 1; apply Rle_pow; [lra|lia]).
  assert (KM : 4 * M <= 2 * 2 ^ k * M) by (apply Rmult_le_compat_r; lra).
  destruct (inv_in k d y Hy) as [->|(z & Hz & ->)]; [rewrite Rabs_R0; lra|].
  set (v := tab (2 ^ k) _) in *. assert (Lv : length v = (2 ^ k)%nat) by apply tab_length.
  apply (In_nth _ _ (0, 0)) in Hz as (t & Ht & Et). rewrite (@idif_length F) in Ht by exact Lv.
  assert (P1 : phi <= 1 / 4) by (pose proof floor_phi; pose proof phi_pos; unfold floor50 in *; lra).
  assert (C0 : forall i l, (forall z, In z l -> modulus z <= 3 / 2 * M) -> modulus (nth i l (0, 0)) <= 3 / 2 * M).
  { intros i l Hl. destruct (nth_in_or_default i l (0, 0)) as [H1|H1]; [now apply Hl|]. rewrite H1, modulus_c0. lra. }
  assert (Hv : forall i, modulus (nth i v (0, 0)) <= 3 / 2 * M).
  { intros i. apply C0. intros w Hw. unfold v in Hw. apply in_tab in Hw as (p & _ & ->).
    pose proof (pairs_in M d ltac:(lra) H) as PI. unfold herm. destruct (_ <=? _)%nat.
    - apply (C0 _ (@pairs F d)). exact PI.
    - set (q := nth _ _ _). assert (Eq : modulus (@conj F q) = modulus q) by (unfold modulus, conj; cbn; f_equal; ring).
      rewrite Eq. apply (C0 _ (@pairs F d)). exact PI. }
  destruct (idif_near rounded_power k tau12 (rounded_power_accurate k ltac:(lia)) tau12_range k (le_n k) v v (fun _ => 3 / 2 * M) (fun _ => 3 / 2 * M) Lv Lv)
    with (t := t) as [G1 G2]; [|exact Ht|].
  { intros i Hi. split; [split; [apply Hv|rewrite cdist_same; lra]|lra]. }
  rewrite !rsum_const in *. assert (N0 : 0 < INR (2 ^ k)) by apply lt_0_INR, pow2_pos.
  replace (INR (2 ^ k) * (3 / 2 * M) / INR (2 ^ k)) with (3 / 2 * M) in * by (field; lra).
  assert (G3 : cdist z (nth t (@idif Rarith k v) (0, 0)) <= (1 + gfac tau12) ^ k * (3 / 2 * M) - 3 / 2 * M) by (rewrite <- Et; exact G2). pose proof (cdist_bound z (nth t (@idif Rarith k v) (0, 0))) as CB. pose proof (modulus_fst z) as MF.
  pose proof (growth k ltac:(lia)) as [C1 C2].
  assert ((1 + gfac tau12) ^ k * (3 / 2 * M) <= 4 / 3 * (3 / 2 * M)) by (apply Rmult_le_compat_r; lra).
  eapply Rle_trans; [exact MF|]. eapply Rle_trans; [exact CB|]. eapply Rle_trans; [apply Rplus_le_compat; [exact G1|exact G3]|]. lra.
Qed.
Lemma T_bounded : rfft_bounded (@rfft_fwd F T) (@rfft_inv F T).
Proof. split; [exact fwd_bounded|exact inv_bounded]. Qed.
Lemma T_fwd_length k d : length (@rfft_fwd F T k d) = (2 * 2 ^ k)%nat.
Proof. cbn [rfft_fwd fast_rfft]. rewrite (@flat_length F), tab_length. reflexivity. Qed.
Lemma T_inv_length k d : length (@rfft_inv F T k d) = (2 * 2 ^ k)%nat.
Proof.
  cbn [rfft_inv fast_rfft ref_rfft]. etransitivity; [apply app_length|]. rewrite repeat_length, map_length, (@idif_length F) by apply tab_length. lia.
Qed.
Lemma T_sized : @rfft_sized F T.
Proof. split; intros; rewrite ?T_fwd_length, ?T_inv_length; reflexivity. Qed.
Lemma T_accurate k : (0 < k <= 12)%nat -> rfft_accurate (@rfft_fwd F T) (@rfft_inv F T) k (transform_error tau12 k).
Proof. intros Hk. apply fast_rfft_accurate; [apply rounded_power_accurate; lia|apply tau12_range|lia]. Qed.

(** ** the same with IEEE numbers *)
Definition cosf (n : nat) : spec_float := of_real (single (cos (2 * PI / INR n))).
Definition sinf (n : nat) : spec_float := of_real (single (sin (2 * PI / INR n))).
Definition powf (z : spec_float * spec_float) (e : nat) : spec_float * spec_float :=
  let p := rounded_power (SF2R radix2 (fst z), SF2R radix2 (snd z)) e in (of_real (fst p), of_real (snd p)).
Notation I := (IEEE cosf sinf powf).
Definition TI : rfft I := @Build_rfft I
  (fun k (d : list spec_float) => map of_real (@rfft_fwd F T k (map (SF2R radix2) d)))
  (fun k (d : list spec_float) => map of_real (@rfft_inv F T k (map (SF2R radix2) d))).
Lemma vals (d : list spec_float) d' : Forall2 number d d' -> map (SF2R radix2) d = d'.
Proof. induction 1 as [|x r d d' H _ IH]; [reflexivity|]. cbn. rewrite IH. f_equal. apply H. Qed.
Lemma F2_len {X Y} (P : X -> Y -> Prop) l l' : Forall2 P l l' -> length l = length l'.
Proof. induction 1; cbn; auto. Qed.
Lemma of_reals (l : list R) : (forall x, In x l -> holds x /\ Rabs x <= big) -> Forall2 number (map of_real l) l.
Proof.
  induction l as [|x l IH]; intros H; constructor.
  - apply of_real_number; apply (H x); now left.
  - apply IH. intros y Hy. apply H. now right.
Qed.
Lemma room k x : (0 < k <= 12)%nat -> Rabs x <= 2 * 2 ^ k * 2 ^ 100 -> Rabs x <= big.
Proof.
  intros Hk H. eapply Rle_trans; [exact H|]. assert (K : 2 ^ k <= 2 ^ 12) by (apply Rle_pow; [lra|lia]).
  eapply Rle_trans; [apply Rmult_le_compat_r; [lra|apply Rmult_le_compat_l; [lra|exact K]]|]. unfold big. lra.
Qed.
Lemma TI_same : @same_transform I number (rfft_fwd TI) (rfft_inv TI) (@rfft_fwd F T) (@rfft_inv F T).
Proof.
  split; cbn [rfft_fwd rfft_inv TI].
  - intros k d d' _. rewrite map_length, !T_fwd_length. reflexivity.
  - intros k d d' _. rewrite map_length, !T_inv_length. reflexivity.
  - intros k d d' Hk Hd H Hb. rewrite (vals _ _ H). apply of_reals. intros x Hx. split; [apply (fwd_holds k d'); [lia|exact Hx]|].
    apply (room k x Hk). apply (fwd_bounded k d' (2 ^ 100) Hk); auto; [|lra]. etransitivity; [symmetry; exact (F2_len _ _ _ H)|exact Hd].
  - intros k d d' Hk Hd H Hb. rewrite (vals _ _ H). apply of_reals. intros x Hx. split; [apply (inv_holds k d'); [lia|exact Hx]|].
    apply (room k x Hk). apply (inv_bounded k d' (2 ^ 100) Hk); auto; [|lra]. etransitivity; [symmetry; exact (F2_len _ _ _ H)|exact Hd].
Qed.
Lemma trig_number z : -1 <= z <= 1 -> number (of_real (single z)) (single z).
Proof.
  intros Hz. apply of_real_number; [apply holds_single|]. pose proof (single_err2 z ltac:(apply Rabs_def1; lra)) as E.
  assert (Rabs (single z) <= Rabs z + u24).
  { replace (single z) with (z + (single z - z)) by ring. eapply Rle_trans; [apply Rabs_triang|]. lra. }
  assert (Rabs z <= 1) by (apply Rabs_le; lra). unfold big, u24 in *. lra.
Qed.
Lemma I_roots k : (k <= 12)%nat -> @same_roots I number k rounded_power.
Proof.
  intros Hk j e Hj He. destruct j as [|j]; [cbn in He; assert (e = 0%nat) by lia; subst e|].
  - assert (S0 : forall z w, SF2R radix2 (fst z) = fst w -> SF2R radix2 (snd z) = snd w ->
      let p := powf z 0 in let q := rounded_power w 0 in number (fst p) (fst q) /\ number (snd p) (snd q)).
    { intros z w H1 H2. cbv zeta. unfold powf. rewrite H1, H2. cbv zeta. cbn [fst snd]. destruct w as [a b]. cbn [fst snd].
      unfold rounded_power, exact_power. cbn [cpow c1 fst snd s1 s0 Rarith]. split; apply trig_number; lra. }
    pose proof (COS_bound (2 * PI / INR (2 ^ 0))) as B1. pose proof (SIN_bound (2 * PI / INR (2 ^ 0))) as B2.
    pose proof (number_val _ _ (trig_number _ B1)) as V1. pose proof (number_val _ _ (trig_number _ B2)) as V2.
    split; apply S0; cbn [cis cis_neg fst snd scos ssin sopp IEEE SingleWith]; [exact V1|exact V2|exact V1|].
    rewrite SF2R_opp. now apply f_equal.
  - assert (Hj' : (j < 12)%nat) by lia. assert (He' : (e < 2 ^ j)%nat) by (cbn [Nat.pow] in He; lia).
    destruct (root_close j e Hj' He') as [C1 C2].
    assert (Hn : (0 < 2 * 2 ^ j)%nat) by (pose proof (Nat.pow_nonzero 2 j); lia).
    pose proof (unit_root_neg (2 * 2 ^ j) e Hn) as U1. pose proof (unit_root (2 * 2 ^ j) e Hn) as U2.
    change (2 ^ S j)%nat with (2 * 2 ^ j)%nat. set (n := (2 * 2 ^ j)%nat) in *.
    assert (S0 : forall z w v, SF2R radix2 (fst z) = fst w -> SF2R radix2 (snd z) = snd w -> modulus v = 1 -> cdist (rounded_power w e) v <= tau12 ->
      let p := powf z e in let q := rounded_power w e in number (fst p) (fst q) /\ number (snd p) (snd q)).
    { intros z w v H1 H2 Hv Hd. cbv zeta. unfold powf. rewrite H1, H2. cbv zeta. cbn [fst snd]. destruct w as [a b]. cbn [fst snd].
      pose proof (cdist_bound (rounded_power (a, b) e) v) as B. rewrite Hv in B.
      pose proof (modulus_fst (rounded_power (a, b) e)) as M1. pose proof (modulus_snd (rounded_power (a, b) e)) as M2.
      assert (L : 1 + tau12 <= big) by (unfold tau12, u24, big; lra).
      split; (apply of_real_number; [apply holds_single|lra]). }
    pose proof (COS_bound (2 * PI / INR n)) as B1. pose proof (SIN_bound (2 * PI / INR n)) as B2.
    pose proof (number_val _ _ (trig_number _ B1)) as V1. pose proof (number_val _ _ (trig_number _ B2)) as V2.
    split.
    + exact (S0 (@cis I n) (@cis F n) (@cpow Rarith (@cis Rarith n) e) V1 V2 U2 C2).
    + apply (S0 (@cis_neg I n) (@cis_neg F n) (@cpow Rarith (@cis_neg Rarith n) e) V1); [|exact U1|exact C1].
      cbn [cis_neg snd ssin sopp IEEE SingleWith]. rewrite SF2R_opp. now apply f_equal.
Qed.

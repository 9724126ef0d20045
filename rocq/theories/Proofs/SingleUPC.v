(** * The uniformly partitioned convolver in single precision *)
From Coq Require Import Reals Lra Lia Psatz ZArith Permutation.
From Verif.Model Require Import Base Arith ArithReal ArithSingle Juce.
From Verif.Spec Require Import Transform Signal Precision RealFFT.
From Verif.Proofs Require Import Lists ComplexAlg Butterfly FFTProof RealFFTProof Norms SingleProof SingleFFT SingleTD Streams UPCProof UPCFloat.
Open Scope R_scope.

(** ** order of a sum *)
Lemma rsum_list n f : rsum n f = fold_right Rplus 0 (map f (seq 0 n)).
Proof.
  assert (G : forall l a, fold_right Rplus 0 (l ++ [a]) = fold_right Rplus 0 l + a).
  { induction l as [|b l IH]; intros a; cbn; [ring|]. rewrite IH. ring. }
  induction n as [|n IH]; [reflexivity|]. cbn [rsum]. rewrite seq_S, map_app. cbn [map]. rewrite G, <- IH. reflexivity.
Qed.
Lemma fold_perm l l' : Permutation l l' -> fold_right Rplus 0 l = fold_right Rplus 0 l'.
Proof. induction 1; cbn; lra. Qed.
Lemma rsum_bitrev k f : rsum (2 ^ k) (fun p => f (bitrev k p)) = rsum (2 ^ k) f.
Proof.
  rewrite !rsum_list. rewrite <- (map_map (bitrev k) f). apply fold_perm, Permutation_map.
  apply NoDup_Permutation_bis.
  - apply (NoDup_map_inv (bitrev k)). rewrite map_map.
    rewrite (map_ext_in _ (fun a => a)); [rewrite map_id; apply seq_NoDup|].
    intros a Ha. apply in_seq in Ha. apply bitrev_invol. lia.
  - now rewrite map_length.
  - intros a Ha. apply in_map_iff in Ha as (b & <- & Hb). apply in_seq. pose proof (bitrev_lt k b). lia.
Qed.

(** ** the energy of a transform *)
Lemma dft_energy k (x : list (R * R)) : length x = (2 ^ k)%nat ->
  energy (2 ^ k) (fun b => modulus (@dft Rarith (2 ^ k) x b)) = rN k * en (2 ^ k) x.
Proof.
  intros Hx. rewrite <- (dif_energy k x Hx). unfold en, energy. f_equal.
  rewrite <- (rsum_bitrev k). apply rsum_ext. intros p Hp.
  assert (E : nth p (@dif Rarith k x) (0, 0) = @dft Rarith (2 ^ k) x (bitrev k p)) by exact (@dif_dft Rarith Rarith_laws k x p Hx Hp).
  exact (eq_sym (f_equal (fun z => modulus z * modulus z) E)).
Qed.
Lemma energy_mono n m f : (n <= m)%nat -> energy n f <= energy m f.
Proof.
  intros H. apply sqrt_le_1_alt. replace m with (n + (m - n))%nat by lia. rewrite rsum_app.
  pose proof (rsum_nonneg (m - n) (fun i => f (n + i)%nat * f (n + i)%nat)) as G. rewrite <- (Rplus_0_r (rsum n _)) at 1.
  apply Rplus_le_compat_l, G. intros. nra.
Qed.
Lemma en_real k (w : nat -> R) : en (2 ^ k) (map (@creal Rarith) (tab (2 ^ k) w)) = energy (2 ^ k) w.
Proof.
  unfold en, energy. f_equal. apply rsum_ext. intros i Hi. rewrite tab_map, tab_nth by auto. rewrite modulus_sq. cbn. ring.
Qed.

(** ** [K] products of spectra *)
Section Product.
  Variables (pow : R * R -> nat -> R * R).
  Notation F := (SingleWith pow).
  Variables (H K : nat) (rn delta : R) (a a' h h' : nat -> nat -> R * R) (SX SH : nat -> R).
  Hypothesis (HK : (0 < K)%nat) (Hrn : 0 < rn) (Hdelta : 0 <= delta).
  Definition WX i b := modulus (a' i b) + floor50 / 2.
  Definition DX i b := cdist (a i b) (a' i b).
  Definition WH i b := modulus (h' i b) + floor50 / 2.
  Definition DH i b := cdist (h i b) (h' i b).
  Hypothesis EX : forall i, (i < K)%nat -> energy H (WX i) <= rn * SX i /\ energy H (DX i) <= rn * (delta * SX i).
  Hypothesis EH : forall i, (i < K)%nat -> energy H (WH i) <= rn * SH i /\ energy H (DH i) <= rn * (delta * SH i).

  Definition ufac : R := (1 + 2 * u24) ^ K * (1 + 5 * u24).
  Definition wsum b := rsum K (fun i => WX i b * WH i b).
  Definition tsum b := ufac * rsum K (fun i => (WX i b + DX i b) * (WH i b + DH i b)).

  Lemma floors i b : floor50 / 2 <= WX i b /\ floor50 / 2 <= WH i b /\ 0 <= DX i b /\ 0 <= DH i b /\ 4 * phi <= WX i b * WH i b.
  Proof.
    unfold WX, WH, DX, DH. pose proof (modulus_nonneg (a' i b)). pose proof (modulus_nonneg (h' i b)).
    pose proof (cdist_nonneg (a i b) (a' i b)). pose proof (cdist_nonneg (h i b) (h' i b)).
    pose proof floor_pos. pose proof floor_sq. repeat split; try lra. nra.
  Qed.

  Lemma bin_near b :
    near (@cadd F (@cmul F (a 0%nat b) (h 0%nat b)) (@csum F (K - 1) (fun i => @cmul F (a (S i) b) (h (S i) b))))
         (@csum Rarith K (fun i => @cmul Rarith (a' i b) (h' i b))) (wsum b) (tsum b).
  Proof.
    pose proof u24_pos as U. pose proof phi_pos as Ph.
    set (s := fun i => (1 + 5 * u24) * ((WX i b + DX i b) * (WH i b + DH i b))).
    assert (P1 : forall i, near (@cmul F (a i b) (h i b)) (@cmul Rarith (a' i b) (h' i b)) (WX i b * WH i b) (s i)).
    { intros i. destruct (floors i b) as (F1 & F2 & F3 & F4 & F5). apply near_mul.
      - unfold WX, DX. pose proof floor_pos. split; lra.
      - unfold WH, DH. pose proof floor_pos. split; lra.
      - lra. }
    pose proof (csum_near pow (K - 1) (fun i => @cmul F (a (S i) b) (h (S i) b)) (fun i => @cmul Rarith (a' (S i) b) (h' (S i) b))
      (fun i => WX (S i) b * WH (S i) b) (fun i => s (S i))) as C.
    assert (C' := C ltac:(intros r Hr; split; [apply P1|apply floors])). clear C.
    destruct (near_le _ _ _ _ C') as [L1 _]. destruct (floors 0 b) as (F1 & F2 & F3 & F4 & F5).
    destruct (near_le _ _ _ _ (P1 0%nat)) as [L2 _].
    pose proof (near_add pow _ _ _ _ _ _ _ _ (P1 0%nat) C' ltac:(lra)) as A1.
    assert (E1 : @csum Rarith K (fun i => @cmul Rarith (a' i b) (h' i b))
      = @cadd Rarith (@cmul Rarith (a' 0%nat b) (h' 0%nat b)) (@csum Rarith (K - 1) (fun i => @cmul Rarith (a' (S i) b) (h' (S i) b)))).
    { replace K with (1 + (K - 1))%nat at 1 by lia. rewrite (@csum_app Rarith Rarith_laws). f_equal.
      cbn [csum]. unfold cadd, c0, cmul. cbn. f_equal; ring. }
    rewrite E1.
    assert (E2 : wsum b = WX 0 b * WH 0 b + rsum (K - 1) (fun i => WX (S i) b * WH (S i) b)).
    { unfold wsum. replace K with (1 + (K - 1))%nat at 1 by lia. rewrite rsum_app. cbn [rsum Nat.add]. ring. }
    rewrite E2. eapply near_weaken; [exact A1|].
    assert (E3 : tsum b = (1 + 2 * u24) ^ K * (s 0%nat + rsum (K - 1) (fun i => s (S i)))).
    { unfold tsum, ufac, s. replace K with (1 + (K - 1))%nat at 2 by lia. rewrite rsum_app, rsum_scal. cbn [rsum Nat.add]. ring. }
    assert (EP : (1 + 2 * u24) ^ K = (1 + 2 * u24) * (1 + 2 * u24) ^ (K - 1)).
    { replace K with (S (K - 1)) at 1 by lia. reflexivity. }
    rewrite E3, EP.
    assert (1 <= (1 + 2 * u24) ^ (K - 1)) by (apply pow_R1_Rle; lra).
    rewrite Rmult_assoc. apply Rmult_le_compat_l; [lra|]. rewrite Rmult_plus_distr_l. apply Rplus_le_compat_r. nra.
  Qed.

  Definition M : R := rsum K (fun i => SX i * SH i).
  Lemma product_total :
    rsum H wsum <= rn * rn * M /\
    (1 + delta) * rsum H tsum - rsum H wsum <= rn * rn * (((1 + delta) ^ 3 * ufac - 1) * M).
  Proof.
    pose proof u24_pos as U.
    assert (U1 : 1 <= ufac).
    { unfold ufac. assert (1 <= (1 + 2 * u24) ^ K) by (apply pow_R1_Rle; lra). apply ge1_mul; lra. }
    set (WV := fun r => rsum H (fun p => WX r p * WH r p)).
    set (DD := fun r => rsum H (fun p => DX r p * WH r p) + rsum H (fun p => WX r p * DH r p) + rsum H (fun p => DX r p * DH r p)).
    assert (Ew : rsum H wsum = rsum K WV) by (unfold wsum, WV; apply rsum_swap).
    assert (Es : rsum H tsum = ufac * rsum K (fun r => WV r + DD r)).
    { unfold tsum. rewrite rsum_scal, rsum_swap. f_equal. apply rsum_ext. intros r Hr.
      unfold WV, DD. rewrite <- !rsum_plus. apply rsum_ext. intros. ring. }
    assert (BW : forall r, (r < K)%nat -> 0 <= WV r <= rn * rn * (SX r * SH r)).
    { intros r Hr. destruct (EX r Hr) as [E1 E2]. destruct (EH r Hr) as [E3 E4]. split.
      - apply rsum_nonneg. intros p Hp. destruct (floors r p) as (_ & _ & _ & _ & G). pose proof phi_pos. lra.
      - eapply Rle_trans; [apply cauchy|].
        replace (rn * rn * (SX r * SH r)) with ((rn * SX r) * (rn * SH r)) by ring.
        apply Rmult_le_compat; auto using energy_nonneg. }
    assert (BD : forall r, (r < K)%nat -> DD r <= rn * rn * (((1 + delta) * (1 + delta) - 1) * (SX r * SH r))).
    { intros r Hr. destruct (EX r Hr) as [E1 E2]. destruct (EH r Hr) as [E3 E4].
      unfold DD.
      replace (rn * rn * (((1 + delta) * (1 + delta) - 1) * (SX r * SH r))) with
        (rn * (delta * SX r) * (rn * SH r) + rn * SX r * (rn * (delta * SH r))
         + rn * (delta * SX r) * (rn * (delta * SH r))) by ring.
      apply Rplus_le_compat; [apply Rplus_le_compat|]; (eapply Rle_trans; [apply cauchy|]);
        apply Rmult_le_compat; auto using energy_nonneg. }
    assert (SW : rsum K WV <= rn * rn * M).
    { unfold M. rewrite <- rsum_scal. apply rsum_le. intros; now apply BW. }
    assert (SD : rsum K DD <= rn * rn * (((1 + delta) * (1 + delta) - 1) * M)).
    { unfold M. rewrite <- !rsum_scal. apply rsum_le. intros; now apply BD. }
    rewrite Ew, Es, rsum_plus. split; [exact SW|].
    set (f := (1 + delta) * ufac). assert (F1 : 1 <= f) by (apply ge1_mul; lra).
    replace ((1 + delta) * (ufac * (rsum K WV + rsum K DD)) - rsum K WV) with ((f - 1) * rsum K WV + f * rsum K DD) by (unfold f; ring).
    replace (rn * rn * (((1 + delta) ^ 3 * ufac - 1) * M))
      with ((f - 1) * (rn * rn * M) + f * (rn * rn * (((1 + delta) * (1 + delta) - 1) * M))) by (unfold f; ring).
    apply Rplus_le_compat; apply Rmult_le_compat_l; lra.
  Qed.
End Product.

(** ** one output sample *)
Section Out.
  Variables (pow : R * R -> nat -> R * R).
  Notation A1 := (SingleWith pow).
  Variables (Rf : rfft A1) (k : nat) (delta : R).
  Hypothesis HR : rfft_accurate (@rfft_fwd A1 Rf) (@rfft_inv A1 Rf) k delta.
  Hypothesis Hdelta : 0 <= delta.
  Variables (P K : nat) (h x : nat -> nat -> R).
  Hypothesis (HP : (0 < P)%nat) (Hk : (0 < k)%nat) (HF : (2 * P <= 2 ^ k)%nat) (HK : (0 < K)%nat).
  Notation N := (2 ^ k)%nat.
  Notation H := (2 ^ (k - 1) + 1)%nat.
  Notation sN := (sqrt (INR (2 ^ k))).

  Lemma half_bins : (H <= N)%nat /\ (N <= 2 * H)%nat.
  Proof.
    assert (E : (2 ^ k = 2 * 2 ^ (k - 1))%nat) by (replace k with (S (k - 1)) at 1 by lia; reflexivity).
    pose proof (pow2_pos (k - 1)). lia.
  Qed.
  Lemma sN1 : 1 <= sN.
  Proof. rewrite <- sqrt_1. apply sqrt_le_1_alt. change 1 with (INR 1). apply le_INR, pow2_pos. Qed.

  (** the exact spectrum of a window, with some room *)
  Lemma window_energy (w : nat -> R) SL : energy N w + sN * floor50 <= SL ->
    energy H (fun b => modulus (@rd Rarith N w b) + floor50 / 2) <= sN * SL.
  Proof.
    intros HS. pose proof sN1. pose proof floor_pos. destruct half_bins as [H1 _].
    eapply Rle_trans; [apply energy_mono; exact H1|].
    eapply Rle_trans; [apply energy_add|]. rewrite energy_const by lra.
    assert (E : energy N (fun i => modulus (@rd Rarith N w i)) = sN * energy N w).
    { rewrite <- (en_real k w). apply dft_energy. rewrite map_length. apply tab_length. }
    rewrite E, <- Rmult_plus_distr_l. apply Rmult_le_compat_l; [lra|]. nra.
  Qed.
  (** what the transform makes of it *)
  Lemma window_error (w : nat -> R) SL : energy N w + sN * floor50 <= SL ->
    energy H (fun b => cdist (@fbin A1 Rf k w b) (@rd Rarith N w b)) <= sN * (delta * SL).
  Proof.
    intros HS. pose proof sN1.
    set (d := tab (2 * N) (fun i => if (i <? N)%nat then w i else 0)).
    pose proof (acc_fwd _ _ _ _ HR d (tab_length _ _)) as G.
    assert (E1 : firstn N d = tab N w).
    { unfold d. rewrite tab_firstn. rewrite Nat.min_l by lia. apply tab_ext. intros i Hi.
      destruct (Nat.ltb_spec i N); [reflexivity|lia]. }
    rewrite E1 in G.
    assert (E2 : energy N (fun i => nth i d 0) = energy N w).
    { apply energy_ext. intros i Hi. unfold d. rewrite tab_nth by lia. destruct (Nat.ltb_spec i N); [reflexivity|lia]. }
    rewrite E2 in G. eapply Rle_trans; [exact G|].
    replace (sN * (delta * SL)) with (delta * (sN * SL)) by ring. apply Rmult_le_compat_l; auto.
    apply Rmult_le_compat_l; lra.
  Qed.

  Variables (c : nat) (X : R) (SH : nat -> R).
  Hypothesis HX : forall i, Rabs (x c i) + floor50 <= X.
  Hypothesis HH : forall i, (i < K)%nat -> energy P (fun q => h c (i * P + q)%nat) + sN * floor50 <= SH i.

  Lemma X_room : floor50 <= X.
  Proof. pose proof (HX 0%nat). pose proof (Rabs_pos (x c 0%nat)). lra. Qed.
  Lemma past_peak m v : @past A1 P k x c m v -> Rabs v <= X - floor50.
  Proof.
    pose proof X_room. intros [->|(i & _ & ->)].
    - cbn. rewrite Rabs_R0. lra.
    - specialize (HX i). lra.
  Qed.
  Lemma past_energy (w : nat -> R) : (forall j, (j < N)%nat -> Rabs (w j) <= X - floor50) -> energy N w + sN * floor50 <= sN * X.
  Proof.
    intros Hw. pose proof X_room. pose proof sN1.
    assert (energy N w <= sN * (X - floor50)); [|lra].
    apply energy_peak; [|lra]. auto.
  Qed.
  Lemma part_energy i : energy N (@UPCFloat.hpart A1 P h c i) = energy P (fun q => h c (i * P + q)%nat).
  Proof.
    unfold energy. f_equal. replace N with (P + (N - P))%nat by lia. rewrite rsum_app.
    rewrite <- (Rplus_0_r (rsum P (fun q => h c (i * P + q)%nat * h c (i * P + q)%nat))). f_equal.
    - apply rsum_ext. intros q Hq. unfold UPCFloat.hpart. destruct (Nat.ltb_spec q P); [reflexivity|lia].
    - transitivity (rsum (N - P) (fun _ => 0)); [|rewrite rsum_const; ring]. apply rsum_ext. intros q Hq.
      unfold UPCFloat.hpart. destruct (Nat.ltb_spec (P + q) P); [lia|]. cbn. ring.
  Qed.

  Lemma upc_out_near t v : @upc_out A1 Rf P k K h x c t v ->
    Rabs (v - @fir Rarith (K * P) (h c) (x c) t)
    <= ((1 + delta) ^ 3 * ufac K - 1) * (2 * (sN * X * rsum K SH)).
  Proof.
    intros (m & pos & w & d & Hpos & Et & Hw & Hpast & Hd & Hb & Ev).
    destruct half_bins as [HB1 HB2].
    set (D := (N - P)%nat) in *.
    set (wf := fun i j => if (i =? 0)%nat then w j else @ago Rarith (x c) (m * P + j) (i * P + D)).
    set (hp := @UPCFloat.hpart A1 P h c).
    set (a := fun i b => if (i =? 0)%nat then @fbin A1 Rf k w b else @UPCFloat.wbin A1 Rf k x c (m * P) (i * P + D) b).
    set (a' := fun i b => @rd Rarith N (wf i) b).
    set (hh := fun i b => @UPCFloat.hbin A1 Rf P k h c i b).
    set (hh' := fun i b => @rd Rarith N (hp i) b).
    assert (Hwf : forall i j, (i < K)%nat -> (j < N)%nat -> Rabs (wf i j) <= X - floor50).
    { intros i j Hi Hj. unfold wf. destruct (i =? 0)%nat; [now apply (past_peak m), Hpast|].
      unfold ago. destruct (_ <=? _)%nat; [pose proof (HX (m * P + j - (i * P + D))); lra|].
      change (Rabs 0 <= X - floor50). rewrite Rabs_R0. pose proof X_room. lra. }
    assert (EX : forall i, (i < K)%nat ->
      energy H (WX a' i) <= sN * (sN * X) /\ energy H (DX a a' i) <= sN * (delta * (sN * X))).
    { intros i Hi. pose proof (past_energy (wf i) (fun j => Hwf i j Hi)) as PE. split.
      - apply window_energy. exact PE.
      - assert (Z0 : 0 <= sN * (delta * (sN * X))).
        { pose proof sN1. pose proof X_room. pose proof floor_pos. apply Rmult_le_pos; [lra|]. apply Rmult_le_pos; [lra|].
          apply Rmult_le_pos; lra. }
        unfold DX, a, a'. destruct (Nat.eqb_spec i 0) as [->|Hi0].
        + apply (window_error (wf 0%nat)). exact PE.
        + unfold UPCFloat.wbin. destruct (Nat.leb_spec (m * P + N) (i * P + D)) as [Hle|Hgt].
          * rewrite (energy_ext _ _ (fun _ => 0)).
            { rewrite energy_const by lra. rewrite Rmult_0_r. exact Z0. }
            intros b Hb'. replace (@rd Rarith N (wf i) b) with (@c0 Rarith); [apply cdist_same|].
            rewrite <- (@rd_zero Rarith Rarith_laws N b). apply rd_ext. intros j Hj. unfold wf.
            destruct (Nat.eqb_spec i 0); [lia|]. symmetry. apply (@ago_before Rarith). lia.
          * assert (EW : forall j, wf i j = @ago A1 (x c) (m * P + j) (i * P + D)).
            { intros j. unfold wf. destruct (Nat.eqb_spec i 0); [lia|]. reflexivity. }
            eapply Rle_trans; [|apply (window_error (wf i)); exact PE].
            right. apply energy_ext. intros b Hb'. f_equal. apply (@fbin_ext A1 Rf k). intros j Hj. symmetry. apply EW. }
    assert (EH : forall i, (i < K)%nat -> energy H (WH hh' i) <= sN * SH i /\ energy H (DH hh hh' i) <= sN * (delta * SH i)).
    { intros i Hi. assert (PE : energy N (hp i) + sN * floor50 <= SH i) by (unfold hp; rewrite part_energy; auto). split.
      - apply window_energy. exact PE.
      - apply (window_error (hp i)). exact PE. }
    destruct (product_total H K sN delta a a' hh hh' (fun _ => sN * X) SH) as [T1 T2]; auto.
    set (y := tab N (fun t => @ssum Rarith K (fun i => @rcirc Rarith N (wf i) (hp i) t))).
    assert (Ey : forall b, @dft Rarith N (map (@creal Rarith) y) b = @csum Rarith K (fun i => @cmul Rarith (a' i b) (hh' i b))).
    { intros b. change (@rd Rarith N (fun t => @ssum Rarith K (fun i => @rcirc Rarith N (wf i) (hp i) t)) b
        = @csum Rarith K (fun i => @cmul Rarith (a' i b) (hh' i b))).
      rewrite (@rd_sum Rarith Rarith_laws). apply csum_ext. intros i Hi. apply (@rd_circ Rarith Rarith_laws). }
    assert (Nr : forall b, (b < H)%nat -> near (nth b (@pairs Rarith d) (0, 0)) (@dft Rarith N (map (@creal Rarith) y) b)
                                  (wsum K a' hh' b) (tsum K a a' hh hh' b)).
    { intros b Hb'. rewrite Ey.
      assert (Eb : nth b (@pairs Rarith d) (0, 0)
        = @cadd A1 (@cmul A1 (a 0%nat b) (hh 0%nat b)) (@csum A1 (K - 1) (fun i => @cmul A1 (a (S i) b) (hh (S i) b)))).
      { etransitivity; [exact (Hb b ltac:(lia))|]. reflexivity. }
      rewrite Eb. apply bin_near; auto. }
    assert (Ly : length y = N) by apply tab_length.
    pose proof (acc_inv _ _ _ _ HR d y (rsum H (fun b => tsum K a a' hh hh' b - wsum K a' hh' b))
       (rsum H (fun b => modulus (@dft Rarith N (map (@creal Rarith) y) b))) Hd Ly) as G.
    specialize (G ltac:(apply rsum_le; intros b Hb'; apply Nr; auto) (Rle_refl _) pos ltac:(lia)).
    assert (Epos : nth pos y 0 = @fir Rarith (K * P) (h c) (x c) t).
    { unfold y. rewrite tab_nth by lia. rewrite Et.
      apply (@ago_ssum_parts Rarith Rarith_laws (S c) P k K h x ltac:(lia) HP Hk HF HK c wf m pos); auto.
      intros i j Hi Hj. unfold wf. destruct (Nat.eqb_spec i 0) as [->|]; [|reflexivity]. apply Hw. exact Hj. }
    rewrite Epos in G. subst v. eapply Rle_trans; [exact G|].
    rewrite rsum_minus.
    set (V := rsum H (fun b => modulus (@dft Rarith N (map (@creal Rarith) y) b))).
    assert (HV : V + INR N * floor104 <= rsum H (wsum K a' hh')).
    { assert (S1 : rsum H (fun b => modulus (@dft Rarith N (map (@creal Rarith) y) b) + floor50 * floor50 / 4) <= rsum H (wsum K a' hh')).
      { apply rsum_le. intros b Hb'. rewrite Ey. unfold wsum.
        assert (S2 : forall q, modulus (@csum Rarith q (fun i => @cmul Rarith (a' i b) (hh' i b)))
                     <= rsum q (fun i => modulus (a' i b) * modulus (hh' i b))).
        { induction q as [|q IH]; cbn [csum rsum].
          - change (modulus (0, 0) <= 0). rewrite modulus_c0. lra.
          - eapply Rle_trans; [apply modulus_add|]. rewrite modulus_mul. lra. }
        specialize (S2 K). pose proof floor_pos as FP.
        assert (S3 : forall q, (0 < q)%nat -> rsum q (fun i => modulus (a' i b) * modulus (hh' i b)) + floor50 * floor50 / 4
                     <= rsum q (fun i => WX a' i b * WH hh' i b)).
        { intros q Hq. destruct q as [|q]; [lia|]. cbn [rsum].
          assert (rsum q (fun i => modulus (a' i b) * modulus (hh' i b)) <= rsum q (fun i => WX a' i b * WH hh' i b)).
          { apply rsum_le. intros i Hi. unfold WX, WH. pose proof (modulus_nonneg (a' i b)). pose proof (modulus_nonneg (hh' i b)). nra. }
          unfold WX at 2, WH at 2. pose proof (modulus_nonneg (a' q b)). pose proof (modulus_nonneg (hh' q b)). nra. }
        specialize (S3 K HK). lra. }
      rewrite rsum_plus, rsum_const in S1. fold V in S1. eapply Rle_trans; [|exact S1]. apply Rplus_le_compat_l.
      unfold floor104. assert (NH : INR N <= 2 * INR H).
      { change 2 with (INR 2). rewrite <- mult_INR. apply le_INR. lia. }
      assert (FQ : 0 < floor50 * floor50) by exact (Rmult_lt_0_compat _ _ floor_pos floor_pos).
      set (f := floor50 * floor50) in *. set (nn := INR N) in *. set (hb := INR H) in *.
      assert (nn * f <= 2 * hb * f) by (apply Rmult_le_compat_r; lra).
      assert (0 <= hb * f) by (apply Rmult_le_pos; [apply pos_INR|lra]). lra. }
    assert (HN : 0 < INR N) by apply lt_0_INR, pow2_pos.
    assert (SS : sN * sN = INR N) by (apply sqrt_sqrt; lra).
    assert (EM : M K (fun _ => sN * X) SH = sN * X * rsum K SH) by (unfold M; apply rsum_scal).
    rewrite EM, SS in T2.
    set (ts := rsum H (tsum K a a' hh hh')) in *. set (ws := rsum H (wsum K a' hh')) in *.
    apply Rle_trans with (2 / INR N * ((1 + delta) * ts - ws)).
    { apply Rmult_le_compat_l; [apply Rlt_le, Rdiv_lt_0_compat; lra|].
      change ((1 + delta) * (ts - ws) + delta * (V + INR N * floor104) <= (1 + delta) * ts - ws).
      assert (delta * (V + INR N * floor104) <= delta * ws) by (apply Rmult_le_compat_l; auto). lra. }
    apply Rle_trans with (2 / INR N * (INR N * (((1 + delta) ^ 3 * ufac K - 1) * (sN * X * rsum K SH)))).
    { apply Rmult_le_compat_l; [apply Rlt_le, Rdiv_lt_0_compat; lra|exact T2]. }
    right. field. lra.
  Qed.
End Out.

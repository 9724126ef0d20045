(** * One partition product of the time-distributed convolver in single precision *)
From Coq Require Import Reals Lra Lia Psatz ZArith.
From Verif.Model Require Import Base Arith ArithReal ArithSingle.
From Verif.Spec Require Import Transform Signal Precision.
From Verif.Proofs Require Import Lists ComplexAlg Butterfly FFTProof Norms SingleProof SingleFFT Streams TDUPCProof TDUPCStream.
Open Scope R_scope.

Lemma single_zero pow : zero_laws (SingleWith pow).
Proof.
  constructor; cbn; intros.
  - rewrite Rplus_0_l. apply single_0.
  - rewrite Rminus_0_r. apply single_0.
  - rewrite Rmult_0_l. apply single_0.
Qed.

(** real numbers *)
Definition nearR (x x' w s : R) : Prop := Rabs x' <= w /\ Rabs (x - x') <= s - w.
Lemma near_fst x x' w s : near x x' w s -> nearR (fst x) (fst x') w s.
Proof.
  intros [H1 H2]. split.
  - eapply Rle_trans; [apply modulus_fst|exact H1].
  - eapply Rle_trans; [apply cdist_fst|exact H2].
Qed.
Lemma nearR_le x x' w s : nearR x x' w s -> 0 <= w <= s /\ Rabs x <= s.
Proof.
  intros [H1 H2]. pose proof (Rabs_pos x'). pose proof (Rabs_pos (x - x')).
  assert (Rabs x <= Rabs x' + Rabs (x - x')).
  { replace x with (x' + (x - x')) at 1 by ring. apply Rabs_triang. }
  lra.
Qed.
Lemma nearR_weaken x x' w s s' : nearR x x' w s -> s <= s' -> nearR x x' w s'.
Proof. intros [H1 H2] H. split; auto. lra. Qed.
(** a larger scale *)
Lemma nearR_scale x x' w c W : nearR x x' w (c * w) -> 1 <= c -> w <= W -> nearR x x' W (c * W).
Proof. intros [H1 H2] Hc HW. split; [lra|]. assert ((c - 1) * w <= (c - 1) * W) by (apply Rmult_le_compat_l; lra). lra. Qed.
Lemma nearR_add pow x x' y y' a s b t : nearR x x' a s -> nearR y y' b t -> phi <= a + b ->
  nearR (@sadd (SingleWith pow) x y) (x' + y') (a + b) ((1 + u24) * (s + t)).
Proof.
  intros Hx Hy Hp. destruct (nearR_le _ _ _ _ Hx) as [Ls Mx]. destruct (nearR_le _ _ _ _ Hy) as [Lt My].
  destruct Hx as [X1 X2], Hy as [Y1 Y2]. split.
  - eapply Rle_trans; [apply Rabs_triang|lra].
  - pose proof (Rabs_triang x y). pose proof (add_err pow x y (s + t) ltac:(lra) ltac:(lra)) as E.
    replace (@sadd (SingleWith pow) x y - (x' + y'))
      with ((@sadd (SingleWith pow) x y - (x + y)) + ((x - x') + (y - y'))) by ring.
    eapply Rle_trans; [apply Rabs_triang|]. pose proof (Rabs_triang (x - x') (y - y')). lra.
Qed.

Lemma ge1_mul a b : 1 <= a -> 1 <= b -> 1 <= a * b.
Proof. intros. nra. Qed.

Section Products.
  Variables (pow : R * R -> nat -> R * R) (k0 : nat) (tau : R).
  Notation F := (SingleWith pow).
  Hypothesis Hpow : pow_accurate pow (@cis F) (@cis_neg F) k0 tau.
  Hypothesis Htau : 0 <= tau <= / 4.
  Notation g := (gfac tau).

  Lemma csum_near K (f f' : nat -> R * R) (w s : nat -> R) :
    (forall r, (r < K)%nat -> near (f r) (f' r) (w r) (s r) /\ 4 * phi <= w r) ->
    near (@csum F K f) (@csum Rarith K f') (rsum K w) ((1 + 2 * u24) ^ K * rsum K s).
  Proof.
    pose proof phi_pos. pose proof u24_pos as Hu. induction K as [|K IH]; intros H'.
    - cbn [csum rsum Rpow_def.pow]. split.
      + change (modulus (0, 0) <= 0). rewrite modulus_c0. lra.
      + change (cdist (0, 0) (0, 0) <= 1 * 0 - 0). rewrite (cdist_same (0, 0)). lra.
    - cbn [csum rsum]. destruct (H' K ltac:(lia)) as [HK Hw].
      assert (I : near (@csum F K f) (@csum Rarith K f') (rsum K w) ((1 + 2 * u24) ^ K * rsum K s)).
      { apply IH. intros r Hr. apply H'. lia. }
      destruct (near_le _ _ _ _ I) as [L1 _]. destruct (near_le _ _ _ _ HK) as [L2 _].
      eapply near_weaken; [apply near_add; [exact I|exact HK|lra]|].
      assert (1 <= (1 + 2 * u24) ^ K) by (apply pow_R1_Rle; lra).
      cbn [Rpow_def.pow]. rewrite Rmult_assoc. apply Rmult_le_compat_l; [lra|]. rewrite Rmult_plus_distr_l.
      apply Rplus_le_compat_l. nra.
  Qed.

  Variables (k P K : nat) (HN : (2 ^ k = 2 * P)%nat) (Hk : (k <= k0)%nat) (HK : (0 < K)%nat).
  Notation N := (2 ^ k)%nat.
  Definition pad : R := sqrt (INR P) * floor50.
  Notation c := ((1 + g) ^ k).

  Lemma P_pos : (0 < P)%nat.
  Proof. pose proof (pow2_pos k). lia. Qed.
  Lemma sqrtP : 1 <= sqrt (INR P).
  Proof. rewrite <- sqrt_1. apply sqrt_le_1_alt. change 1 with (INR 1). apply le_INR. pose proof P_pos. lia. Qed.
  Lemma rN_P : rN k = sqrt 2 * sqrt (INR P).
  Proof. unfold rN. rewrite HN, mult_INR. rewrite sqrt_mult_alt by (cbn; lra). reflexivity. Qed.
  Lemma rN_pos' : 0 < rN k.
  Proof. apply sqrt_lt_R0, lt_0_INR, pow2_pos. Qed.
  Lemma pad_room : floor50 / 2 + rN k * phi <= pad.
  Proof.
    unfold pad. rewrite rN_P. pose proof sqrtP. pose proof floor_phi. pose proof phi_pos. pose proof floor_pos.
    assert (sqrt 2 <= 2). { apply Rle_trans with (sqrt (2 * 2)); [apply sqrt_le_1_alt; lra|]. rewrite sqrt_square; lra. }
    assert (sqrt 2 * phi <= floor50 / 2) by nra.
    assert (floor50 / 2 <= sqrt (INR P) * (floor50 / 2)) by nra.
    replace (sqrt 2 * sqrt (INR P) * phi) with (sqrt (INR P) * (sqrt 2 * phi)) by ring.
    assert (sqrt (INR P) * (sqrt 2 * phi) <= sqrt (INR P) * (floor50 / 2)) by (apply Rmult_le_compat_l; lra). lra.
  Qed.

  Definition Wf (l : list (R * R)) (b : nat) : R := modulus (nth b (@dif Rarith k l) (0, 0)) + floor50 / 2.
  Definition Df (l : list (R * R)) (b : nat) : R := cdist (nth b (@dif F k l) (0, 0)) (nth b (@dif Rarith k l) (0, 0)).
  Lemma Wf_floor l b : floor50 / 2 <= Wf l b.
  Proof. unfold Wf. pose proof (modulus_nonneg (nth b (@dif Rarith k l) (0, 0))). lra. Qed.
  Lemma Df_nonneg l b : 0 <= Df l b.
  Proof. apply cdist_nonneg. Qed.
  Lemma spectrum_near l b : near (nth b (@dif F k l) (0, 0)) (nth b (@dif Rarith k l) (0, 0)) (Wf l b) (Wf l b + Df l b).
  Proof. unfold Wf, Df. pose proof floor_pos. split; lra. Qed.
  Lemma spectrum (l : list (R * R)) S : length l = N -> en N l + pad <= S ->
    energy N (Wf l) <= rN k * S /\ energy N (Df l) <= rN k * ((c - 1) * S).
  Proof.
    intros Hl HS.
    pose proof floor_pos. pose proof phi_pos. pose proof pad_room as PR. pose proof rN_pos' as RP.
    pose proof (c_ge1 tau Htau k) as C1. split.
    - unfold Wf. eapply Rle_trans; [apply energy_add|]. rewrite energy_const by lra.
      pose proof (dif_energy k l Hl) as E. unfold en at 1 in E.
      eapply Rle_trans; [apply Rplus_le_compat_r; right; exact E|].
      change (sqrt (INR N)) with (rN k). rewrite <- Rmult_plus_distr_l. apply Rmult_le_compat_l; [lra|].
      assert (0 <= rN k * phi) by (apply Rmult_le_pos; lra). lra.
    - pose proof (dif_err pow k0 tau Hpow Htau k Hk l l Hl Hl) as E. unfold er at 1 in E.
      eapply Rle_trans; [exact E|]. apply Rmult_le_compat_l; [lra|].
      assert (E0 : er N l l = 0).
      { unfold er. rewrite (energy_ext _ _ (fun _ => 0)) by (intros; apply cdist_same).
        rewrite energy_const by lra. ring. }
      rewrite E0, Rmult_0_r, Rplus_0_r. apply Rmult_le_compat_l; lra.
  Qed.

  Definition afac : R := (1 + g) ^ k * ((1 + 2 * u24) ^ K * (1 + 5 * u24)).
  Lemma afac_ge1 : 1 <= afac.
  Proof.
    unfold afac. pose proof u24_pos. pose proof (c_ge1 tau Htau k).
    assert (1 <= (1 + 2 * u24) ^ K) by (apply pow_R1_Rle; lra). apply ge1_mul; auto. apply ge1_mul; lra.
  Qed.

  (** the product of the spectra of [K] pairs of signals *)
  Lemma product_near (X H : nat -> list (R * R)) (SX SH : nat -> R) :
    (forall r, (r < K)%nat -> length (X r) = N /\ en N (X r) + pad <= SX r) ->
    (forall r, (r < K)%nat -> length (H r) = N /\ en N (H r) + pad <= SH r) ->
    forall t, (t < N)%nat ->
    near (nth t (@idif F k (tab N (fun p => @csum F K (fun r => @cmul F (nth p (@dif F k (X r)) (0, 0)) (nth p (@dif F k (H r)) (0, 0)))))) (0, 0))
         (nth t (@idif Rarith k (tab N (fun p => @csum Rarith K (fun r => @cmul Rarith (nth p (@dif Rarith k (X r)) (0, 0)) (nth p (@dif Rarith k (H r)) (0, 0)))))) (0, 0))
         (rsum K (fun r => SX r * SH r)) (afac * (c * c) * rsum K (fun r => SX r * SH r)).
  Proof.
    intros HX HH t Ht.
    pose proof floor_pos as Fp. pose proof floor_sq as Fq. pose proof phi_pos as Ph. pose proof rN_pos' as RP.
    pose proof (c_ge1 tau Htau k) as C1. pose proof u24_pos as Hu. pose proof afac_ge1 as A1.
    set (w := fun p => rsum K (fun r => Wf (X r) p * Wf (H r) p)).
    set (s := fun p => (1 + 2 * u24) ^ K * rsum K (fun r => (1 + 5 * u24) * ((Wf (X r) p + Df (X r) p) * (Wf (H r) p + Df (H r) p)))).
    assert (Hw : forall r p, 4 * phi <= Wf (X r) p * Wf (H r) p).
    { intros r p. pose proof (Wf_floor (X r) p). pose proof (Wf_floor (H r) p). nra. }
    assert (Hpt : forall p, near (@csum F K (fun r => @cmul F (nth p (@dif F k (X r)) (0, 0)) (nth p (@dif F k (H r)) (0, 0))))
      (@csum Rarith K (fun r => @cmul Rarith (nth p (@dif Rarith k (X r)) (0, 0)) (nth p (@dif Rarith k (H r)) (0, 0)))) (w p) (s p)).
    { intros p. apply csum_near. intros r Hr. split; [|apply Hw]. apply near_mul; try apply spectrum_near.
      specialize (Hw r p). lra. }
    assert (I := idif_near pow k0 tau Hpow Htau k Hk
      (tab N (fun p => @csum F K (fun r => @cmul F (nth p (@dif F k (X r)) (0, 0)) (nth p (@dif F k (H r)) (0, 0)))))
      (tab N (fun p => @csum Rarith K (fun r => @cmul Rarith (nth p (@dif Rarith k (X r)) (0, 0)) (nth p (@dif Rarith k (H r)) (0, 0)))))
      w s (tab_length _ _) (tab_length _ _)).
    destruct I with (t := t) as [B1 B2]; auto.
    { intros i Hi. split; [rewrite !tab_nth by auto; apply Hpt|].
      unfold w. destruct K as [|K']; [lia|]. cbn [rsum]. specialize (Hw K' i).
      assert (0 <= rsum K' (fun r => Wf (X r) i * Wf (H r) i)).
      { apply rsum_nonneg. intros r Hr. pose proof (Wf_floor (X r) i). pose proof (Wf_floor (H r) i). nra. }
      lra. }
    (* in terms of energies *)
    assert (HNR : 0 < INR N) by (apply lt_0_INR, pow2_pos).
    assert (EN : INR N = rN k * rN k) by (symmetry; apply rN_sq).
    set (WV := fun r => rsum N (fun p => Wf (X r) p * Wf (H r) p)).
    set (DD := fun r => rsum N (fun p => Df (X r) p * Wf (H r) p) + rsum N (fun p => Wf (X r) p * Df (H r) p) + rsum N (fun p => Df (X r) p * Df (H r) p)).
    assert (Ew : rsum N w = rsum K WV) by (unfold w, WV; apply rsum_swap).
    assert (Es : (1 + g) ^ k * (rsum N s / INR N) = afac * (rsum K (fun r => WV r + DD r) / INR N)).
    { unfold s. rewrite rsum_scal, rsum_swap. unfold afac.
      rewrite (rsum_ext K (fun j => rsum N (fun i => (1 + 5 * u24) * ((Wf (X j) i + Df (X j) i) * (Wf (H j) i + Df (H j) i))))
                 (fun r => (1 + 5 * u24) * (WV r + DD r))).
      - rewrite rsum_scal. field. lra.
      - intros r Hr. rewrite rsum_scal. f_equal. unfold WV, DD. rewrite <- !rsum_plus. apply rsum_ext. intros. ring. }
    assert (BW : forall r, (r < K)%nat -> 0 <= WV r <= INR N * (SX r * SH r)).
    { intros r Hr. destruct (HX r Hr) as [L1 L2]. destruct (HH r Hr) as [L3 L4].
      destruct (spectrum _ _ L1 L2) as [E1 E2]. destruct (spectrum _ _ L3 L4) as [E3 E4]. split.
      - apply rsum_nonneg. intros p Hp. specialize (Hw r p). lra.
      - eapply Rle_trans; [apply cauchy|]. rewrite EN.
        replace (rN k * rN k * (SX r * SH r)) with ((rN k * SX r) * (rN k * SH r)) by ring.
        apply Rmult_le_compat; auto using energy_nonneg. }
    assert (BD : forall r, (r < K)%nat -> DD r <= INR N * ((c * c - 1) * (SX r * SH r))).
    { intros r Hr. destruct (HX r Hr) as [L1 L2]. destruct (HH r Hr) as [L3 L4].
      destruct (spectrum _ _ L1 L2) as [E1 E2]. destruct (spectrum _ _ L3 L4) as [E3 E4].
      unfold DD. rewrite EN.
      replace (rN k * rN k * ((c * c - 1) * (SX r * SH r))) with
        (rN k * ((c - 1) * SX r) * (rN k * SH r) + rN k * SX r * (rN k * ((c - 1) * SH r))
         + rN k * ((c - 1) * SX r) * (rN k * ((c - 1) * SH r))) by ring.
      apply Rplus_le_compat; [apply Rplus_le_compat|]; (eapply Rle_trans; [apply cauchy|]);
        apply Rmult_le_compat; auto using energy_nonneg. }
    set (M := rsum K (fun r => SX r * SH r)).
    assert (SW : 0 <= rsum K WV <= INR N * M).
    { unfold M. rewrite <- rsum_scal. split; [apply rsum_nonneg|apply rsum_le]; intros; now apply BW. }
    assert (SD : rsum K DD <= INR N * ((c * c - 1) * M)).
    { unfold M. rewrite <- !rsum_scal. apply rsum_le. intros; now apply BD. }
    assert (HM : rsum K WV / INR N <= M).
    { apply Rmult_le_reg_r with (INR N); auto. replace (rsum K WV / INR N * INR N) with (rsum K WV) by (field; lra). lra. }
    assert (HD : rsum K DD / INR N <= (c * c - 1) * M).
    { apply Rmult_le_reg_r with (INR N); auto. replace (rsum K DD / INR N * INR N) with (rsum K DD) by (field; lra). lra. }
    rewrite Ew in B1, B2. rewrite Es, rsum_plus in B2. split; [lra|].
    eapply Rle_trans; [exact B2|].
    replace (afac * ((rsum K WV + rsum K DD) / INR N) - rsum K WV / INR N)
      with ((afac - 1) * (rsum K WV / INR N) + afac * (rsum K DD / INR N)) by (field; lra).
    replace (afac * (c * c) * M - M) with ((afac - 1) * M + afac * ((c * c - 1) * M)) by ring.
    apply Rplus_le_compat; apply Rmult_le_compat_l; lra.
  Qed.
End Products.

(** a real window followed by as many zeros *)
Lemma en_window k P (f : nat -> R) : (2 ^ k = 2 * P)%nat ->
  en (2 ^ k) (tab (2 ^ k) (fun q => (if (q <? P)%nat then f q else 0, 0))) = energy P f.
Proof.
  intros HN. rewrite HN. replace (2 * P)%nat with (P + P)%nat by lia. unfold en, energy. f_equal.
  rewrite rsum_app. rewrite <- (Rplus_0_r (rsum P (fun i => f i * f i))). f_equal.
  - apply rsum_ext. intros i Hi. rewrite tab_nth by lia.
    destruct (Nat.ltb_spec i P); [|lia]. rewrite modulus_sq. cbn. ring.
  - transitivity (rsum P (fun _ => 0)); [|rewrite rsum_const; ring]. apply rsum_ext.
    intros i Hi. rewrite tab_nth by lia. destruct (Nat.ltb_spec (P + i) P); [lia|]. rewrite modulus_sq. cbn. ring.
Qed.
Lemma energy_peak n f X : (forall i, (i < n)%nat -> Rabs (f i) <= X) -> 0 <= X -> energy n f <= sqrt (INR n) * X.
Proof.
  intros H HX. rewrite <- energy_const by auto. apply sqrt_le_1_alt, rsum_le. intros i Hi. specialize (H i Hi).
  replace (f i * f i) with (Rabs (f i) * Rabs (f i)).
  - pose proof (Rabs_pos (f i)). nra.
  - rewrite <- Rabs_mult. apply Rabs_pos_eq. nra.
Qed.

Section Output.
  Variables (pow : R * R -> nat -> R * R) (k0 : nat) (tau : R).
  Notation F := (SingleWith pow).
  Hypothesis Hpow : pow_accurate pow (@cis F) (@cis_neg F) k0 tau.
  Hypothesis Htau : 0 <= tau <= / 4.
  Notation g := (gfac tau).
  Variables (b s K : nat) (HK : (0 < K)%nat) (Hk : (S (s + b) <= k0)%nat).
  Notation P := (2 ^ (s + b))%nat.
  Notation k := (S (s + b)).

  Definition efac : R := (1 + g) ^ (3 * k) * (1 + 2 * u24) ^ (K + 3).
  Lemma efac_ge1 : 1 <= efac.
  Proof.
    pose proof u24_pos. apply ge1_mul; apply pow_R1_Rle; [|lra]. pose proof (g_pos tau Htau). lra.
  Qed.

  Variables (h x : nat -> R) (X : R) (HL : nat -> R).
  Hypothesis HX : forall i, Rabs (x i) + floor50 <= X.
  Hypothesis HH : forall r, (r < K)%nat -> energy P (fun q => h (r * P + q)%nat) + sqrt (INR P) * floor50 <= HL r.
  Definition level : R := sqrt (INR P) * X * rsum K HL.

  Lemma X_pos : floor50 <= X.
  Proof. specialize (HX 0%nat). pose proof (Rabs_pos (x 0%nat)). lra. Qed.

  Lemma Zv_near m i t : (t < 2 ^ k)%nat ->
    nearR (@Zv F k P K h x m i t) (@Zv Rarith k P K h x m i t) level (afac tau k K * ((1 + g) ^ k * (1 + g) ^ k) * level).
  Proof.
    intros Ht. pose proof floor_pos as Fp. pose proof X_pos as Xp.
    assert (HN : (2 ^ k = 2 * P)%nat) by reflexivity.
    pose proof (product_near pow k0 tau Hpow Htau k P K HN Hk HK
      (fun r => @Xb Rarith k P x m (i + r)) (fun r => @Hb Rarith k P h r)
      (fun _ => sqrt (INR P) * X) HL) as G.
    cbv beta in G. rewrite (rsum_scal K (sqrt (INR P) * X) HL) in G. fold level in G.
    apply near_fst. apply G; auto.
    - intros r Hr. split; [apply (@Xb_length Rarith)|].
      assert (E : en (2 ^ k) (@Xb Rarith k P x m (i + r)) = energy P (fun q => @ago Rarith x (m * P + q) ((i + r) * P))).
      { rewrite <- (en_window k P) by auto. unfold Xb, xw, creal. apply (f_equal (en (2 ^ k))). apply tab_ext. intros q Hq.
        reflexivity. }
      rewrite E. unfold pad.
      assert (B : energy P (fun q => @ago Rarith x (m * P + q) ((i + r) * P)) <= sqrt (INR P) * (X - floor50)); [|lra].
      apply energy_peak; [|lra]. intros q Hq. unfold ago. destruct (_ <=? _)%nat.
      + pose proof (HX (m * P + q - (i + r) * P)). lra.
      + cbn. rewrite Rabs_R0. lra.
    - intros r Hr. split; [apply (@Hb_length Rarith)|].
      assert (E : en (2 ^ k) (@Hb Rarith k P h r) = energy P (fun q => h (r * P + q)%nat)).
      { rewrite <- (en_window k P) by auto. reflexivity. }
      rewrite E. apply HH; auto.
  Qed.

  Lemma level_pos : floor50 * floor50 <= level.
  Proof.
    unfold level. pose proof floor_pos as Fp. pose proof X_pos as Xp.
    assert (SP : 1 <= sqrt (INR P)) by (rewrite <- sqrt_1; apply sqrt_le_1_alt; change 1 with (INR 1); apply le_INR, pow2_pos).
    assert (HLp : forall r, (r < K)%nat -> floor50 <= HL r).
    { intros r Hr. specialize (HH r Hr). pose proof (energy_nonneg P (fun q => h (r * P + q)%nat)). nra. }
    assert (HS : floor50 <= rsum K HL).
    { destruct K as [|K']; [lia|]. cbn [rsum]. assert (0 <= rsum K' HL).
      { apply rsum_nonneg. intros r Hr. specialize (HLp r ltac:(lia)). lra. }
      specialize (HLp K' ltac:(lia)). lra. }
    apply Rmult_le_compat; nra.
  Qed.

End Output.

Section Sum.
  Variables (pow : R * R -> nat -> R * R) (k0 : nat) (tau : R).
  Notation F := (SingleWith pow).
  Hypothesis Hpow : pow_accurate pow (@cis F) (@cis_neg F) k0 tau.
  Hypothesis Htau : 0 <= tau <= / 4.
  Notation g := (gfac tau).

  Lemma tdy_near b s K h x X HL p0 t : (0 < K)%nat -> (S (s + b) <= k0)%nat ->
    (forall i, Rabs (x i) + floor50 <= X) ->
    (forall r, (r < K)%nat -> energy (2 ^ (s + b)) (fun q => h (r * 2 ^ (s + b) + q)%nat) + sqrt (INR (2 ^ (s + b))) * floor50 <= HL r) ->
    nearR (@tdy F b s K h p0 x t) (@tdy Rarith b s K h p0 x t) (2 * level b s K X HL) (efac tau b s K * (2 * level b s K X HL)).
  Proof.
    intros HK Hk HX HH. unfold tdy. set (x' := fun i => @ago Rarith x i (p0 * 2 ^ b)).
    change (fun i : nat => @ago F x i (p0 * 2 ^ b)) with x'. fold x'.
    assert (HX' : forall i, Rabs (x' i) + floor50 <= X).
    { intros i. unfold x', ago. destruct (_ <=? _)%nat; auto. cbn. rewrite Rabs_R0.
      specialize (HX 0%nat). pose proof (Rabs_pos (x 0%nat)). lra. }
    set (m := ((t + p0 * 2 ^ b) / 2 ^ (s + b))%nat). set (q := ((t + p0 * 2 ^ b) mod 2 ^ (s + b))%nat).
    assert (Hq : (q < 2 ^ (s + b))%nat) by (apply Nat.mod_upper_bound, Nat.pow_nonzero; lia).
    assert (E2 : (2 ^ S (s + b) = 2 * 2 ^ (s + b))%nat) by reflexivity.
    pose proof (Zv_near pow k0 tau Hpow Htau b s K HK Hk h x' X HL HX' HH m 2 q ltac:(lia)) as Z1.
    pose proof (Zv_near pow k0 tau Hpow Htau b s K HK Hk h x' X HL HX' HH m 3 (2 ^ (s + b) + q) ltac:(lia)) as Z2.
    assert (LP : floor50 * floor50 <= level b s K X HL) by (eapply level_pos; eauto). pose proof floor_sq. pose proof phi_pos. pose proof u24_pos.
    pose proof (nearR_add pow _ _ _ _ _ _ _ _ Z1 Z2 ltac:(lra)) as E.
    set (l := level b s K X HL) in *.
    replace (2 * l) with (l + l) by ring. eapply nearR_weaken; [exact E|].
    rewrite <- Rmult_plus_distr_l, <- Rmult_assoc. apply Rmult_le_compat_r; [lra|].
    unfold afac, efac. set (k := S (s + b)).
    assert (Ep : (1 + g) ^ (3 * k) = (1 + g) ^ k * ((1 + g) ^ k * (1 + g) ^ k)).
    { rewrite <- !pow_add. f_equal. lia. }
    rewrite Ep, pow_add. set (c := (1 + g) ^ k).
    pose proof (c_ge1 tau Htau k) as C1. fold c in C1.
    assert (D1 : 1 <= (1 + 2 * u24) ^ K) by (apply pow_R1_Rle; lra). set (d := (1 + 2 * u24) ^ K) in *.
    assert (0 <= c * (c * c) * d).
    { apply Rmult_le_pos; [|lra]. apply Rmult_le_pos; [lra|]. apply Rmult_le_pos; lra. }
    replace ((1 + u24) * (c * (d * (1 + 5 * u24)) * (c * c))) with (c * (c * c) * d * ((1 + u24) * (1 + 5 * u24))) by ring.
    apply Rle_trans with (c * (c * c) * d * (1 + 2 * u24) ^ 3); [|right; ring].
    apply Rmult_le_compat_l; auto. cbn [Rpow_def.pow]. unfold u24. lra.
  Qed.
End Sum.

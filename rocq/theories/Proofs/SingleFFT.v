(** * Butterflies and transforms in single precision *)
From Coq Require Import Reals Lra Lia Psatz ZArith.
From Flocq Require Import Core Relative.
From Verif.Model Require Import Base Arith ArithReal ArithSingle.
From Verif.Spec Require Import Transform Precision.
From Verif.Proofs Require Import Lists ComplexAlg Butterfly Norms SingleProof.
Open Scope R_scope.

(** ** rounding below a level *)
Definition phi : R := bpow radix2 (-126).
Lemma phi_pos : 0 < phi. Proof. apply bpow_gt_0. Qed.
Lemma u24_pos : 0 < u24. Proof. unfold u24. lra. Qed.
Lemma tiny_phi : tiny = u24 * phi.
Proof. unfold tiny, phi. rewrite u24_bpow, <- bpow_plus. reflexivity. Qed.
Lemma floor_bpow : floor50 = bpow radix2 (-50).
Proof. unfold floor50. cbn. lra. Qed.
Lemma floor_pos : 0 < floor50. Proof. rewrite floor_bpow. apply bpow_gt_0. Qed.
Lemma floor_sq : 16 * phi <= floor50 * floor50.
Proof.
  rewrite floor_bpow, <- bpow_plus. replace 16 with (bpow radix2 4) by (cbn; lra). unfold phi.
  rewrite <- bpow_plus. apply bpow_le. lia.
Qed.
Lemma floor_phi : 4 * phi <= floor50.
Proof.
  rewrite floor_bpow. replace 4 with (bpow radix2 2) by (cbn; lra). unfold phi.
  rewrite <- bpow_plus. apply bpow_le. lia.
Qed.

Lemma single_errM x M : Rabs x <= M -> phi <= M -> Rabs (single x - x) <= u24 * M.
Proof.
  intros Hx HM.
  destruct (error_N_FLT radix2 (-149) 24 ltac:(lia) (fun z => negb (Z.even z)) x) as (e & t & He & Ht & Het & E).
  assert (He' : Rabs e <= u24).
  { rewrite u24_bpow. replace (bpow radix2 (-24)) with (/2 * bpow radix2 (-24 + 1)); auto. cbn. lra. }
  assert (Ht' : Rabs t <= u24 * phi).
  { rewrite <- tiny_phi. unfold tiny. replace (bpow radix2 (-150)) with (/2 * bpow radix2 (-149)); auto.
    replace (-150)%Z with (-1 + -149)%Z by lia. rewrite bpow_plus. cbn. lra. }
  change (round radix2 (FLT_exp (-149) 24) (Znearest (fun z => negb (Z.even z))) x) with (single x) in E.
  rewrite E. replace (x * (1 + e) + t - x) with (x * e + t) by ring.
  pose proof u24_pos. pose proof (Rabs_pos x). pose proof phi_pos.
  apply Rmult_integral in Het as [->| ->].
  - rewrite Rmult_0_r, Rplus_0_l. nra.
  - rewrite Rplus_0_r, Rabs_mult. nra.
Qed.

Section Ops.
  Variable pow : R * R -> nat -> R * R.
  Notation F := (SingleWith pow).

  Lemma add_err (x y : R) M : Rabs (x + y) <= M -> phi <= M -> Rabs (@sadd F x y - (x + y)) <= u24 * M.
  Proof. apply single_errM. Qed.

  Lemma cadd_err (a b : R * R) M : modulus (@cadd Rarith a b) <= M -> phi <= M ->
    cdist (@cadd F a b) (@cadd Rarith a b) <= 2 * u24 * M.
  Proof.
    intros H HM. pose proof phi_pos. pose proof u24_pos.
    eapply Rle_trans; [apply modulus_parts with (e := u24 * M)|nra].
    - apply single_errM; auto. eapply Rle_trans; [|exact H]. apply (modulus_fst (@cadd Rarith a b)).
    - apply single_errM; auto. eapply Rle_trans; [|exact H]. apply (modulus_snd (@cadd Rarith a b)).
  Qed.
  Lemma csub_err (a b : R * R) M : modulus (@csub Rarith a b) <= M -> phi <= M ->
    cdist (@csub F a b) (@csub Rarith a b) <= 2 * u24 * M.
  Proof.
    intros H HM. pose proof phi_pos. pose proof u24_pos.
    eapply Rle_trans; [apply modulus_parts with (e := u24 * M)|nra].
    - apply single_errM; auto. eapply Rle_trans; [|exact H]. apply (modulus_fst (@csub Rarith a b)).
    - apply single_errM; auto. eapply Rle_trans; [|exact H]. apply (modulus_snd (@csub Rarith a b)).
  Qed.
  Lemma cscale_err (a : R * R) (x : R) M : modulus (@cscale Rarith a x) <= M -> phi <= M ->
    cdist (@cscale F a x) (@cscale Rarith a x) <= 2 * u24 * M.
  Proof.
    intros H HM. pose proof phi_pos. pose proof u24_pos.
    eapply Rle_trans; [apply modulus_parts with (e := u24 * M)|nra].
    - apply single_errM; auto. eapply Rle_trans; [|exact H]. apply (modulus_fst (@cscale Rarith a x)).
    - apply single_errM; auto. eapply Rle_trans; [|exact H]. apply (modulus_snd (@cscale Rarith a x)).
  Qed.

  Lemma abs_mul_le a b A B M : Rabs a <= A -> Rabs b <= B -> A * B <= M -> Rabs (a * b) <= M.
  Proof. intros Ha Hb HM. rewrite Rabs_mult. pose proof (Rabs_pos a). pose proof (Rabs_pos b). nra. Qed.


  Lemma products_err p q M : Rabs p <= M -> Rabs q <= M -> Rabs (p + q) <= M -> phi <= M ->
    Rabs (single (single p + single q) - (p + q)) <= (3 + / 100) * u24 * M.
  Proof.
    intros Hp Hq Hr HM. pose proof phi_pos.
    pose proof (single_errM p M Hp HM) as Ep. pose proof (single_errM q M Hq HM) as Eq.
    assert (B : Rabs (single p + single q) <= (1 + 2 * u24) * M).
    { replace (single p + single q) with ((p + q) + ((single p - p) + (single q - q))) by ring.
      eapply Rle_trans; [apply Rabs_triang|]. pose proof (Rabs_triang (single p - p) (single q - q)). lra. }
    pose proof u24_pos.
    pose proof (single_errM _ ((1 + 2 * u24) * M) B ltac:(nra)) as Er.
    replace (single (single p + single q) - (p + q)) with
      ((single (single p + single q) - (single p + single q)) + ((single p - p) + (single q - q))) by ring.
    eapply Rle_trans; [apply Rabs_triang|]. pose proof (Rabs_triang (single p - p) (single q - q)).
    assert (u24 * ((1 + 2 * u24) * M) <= (1 + / 100) * u24 * M).
    { replace (u24 * ((1 + 2 * u24) * M)) with ((1 + 2 * u24) * (u24 * M)) by ring.
      replace ((1 + / 100) * u24 * M) with ((1 + / 100) * (u24 * M)) by ring.
      apply Rmult_le_compat_r; [nra|]. unfold u24. lra. }
    lra.
  Qed.

  Lemma cmul_err (a b : R * R) M : modulus a * modulus b <= M -> phi <= M ->
    cdist (@cmul F a b) (@cmul Rarith a b) <= 5 * u24 * M.
  Proof.
    intros H HM. pose proof phi_pos. pose proof u24_pos.
    pose proof (modulus_fst a) as A1. pose proof (modulus_snd a) as A2.
    pose proof (modulus_fst b) as B1. pose proof (modulus_snd b) as B2.
    pose proof (modulus_mul a b) as E.
    pose proof (modulus_fst (@cmul Rarith a b)) as C1. pose proof (modulus_snd (@cmul Rarith a b)) as C2.
    rewrite E in C1, C2. cbn in C1, C2.
    eapply Rle_trans; [apply modulus_parts with (e := (3 + / 100) * u24 * M)|nra].
    - cbn. replace (single (fst a * fst b) - single (snd a * snd b))
        with (single (fst a * fst b) + single (- (snd a * snd b))) by (rewrite single_opp; ring).
      replace (fst a * fst b - snd a * snd b) with (fst a * fst b + - (snd a * snd b)) by ring.
      apply products_err; auto.
      + eapply abs_mul_le; eauto.
      + rewrite Rabs_Ropp. eapply abs_mul_le; eauto.
      + unfold Rminus in C1. lra.
    - cbn. apply products_err; auto.
      + eapply abs_mul_le; eauto.
      + eapply abs_mul_le; eauto.
      + lra.
  Qed.

  (** ** exact operations on perturbed arguments *)
  Lemma cadd_pert a b a' b' : cdist (@cadd Rarith a b) (@cadd Rarith a' b') <= cdist a a' + cdist b b'.
  Proof.
    unfold cdist. eapply Rle_trans; [|apply modulus_add]. right. apply (f_equal modulus). cbn. f_equal; cbn; ring.
  Qed.
  Lemma csub_pert a b a' b' : cdist (@csub Rarith a b) (@csub Rarith a' b') <= cdist a a' + cdist b b'.
  Proof.
    unfold cdist. eapply Rle_trans; [|apply modulus_sub]. right. apply (f_equal modulus). cbn. f_equal; cbn; ring.
  Qed.
  Lemma cmul_pert a b a' b' :
    cdist (@cmul Rarith a b) (@cmul Rarith a' b') <= cdist a a' * modulus b + modulus a' * cdist b b'.
  Proof.
    unfold cdist. rewrite <- !modulus_mul. eapply Rle_trans; [|apply modulus_add]. right. apply (f_equal modulus). cbn. f_equal; cbn; ring.
  Qed.
  Lemma cscale_pert a b (x : R) : cdist (@cscale Rarith a x) (@cscale Rarith b x) = cdist a b * Rabs x.
  Proof. unfold cdist. rewrite <- modulus_scale. apply (f_equal modulus). unfold cscale. cbn. f_equal; cbn; ring. Qed.
End Ops.

(** ** energies of lists of complex numbers *)
Definition en (n : nat) (l : list (R * R)) : R := energy n (fun i => modulus (nth i l (0, 0))).
Definition er (n : nat) (l l' : list (R * R)) : R := energy n (fun i => cdist (nth i l (0, 0)) (nth i l' (0, 0))).
Lemma en_nonneg n l : 0 <= en n l. Proof. apply energy_nonneg. Qed.
Lemma er_nonneg n l l' : 0 <= er n l l'. Proof. apply energy_nonneg. Qed.

Lemma er_app n m a b a' b' : length a = n -> length a' = n ->
  er (n + m) (a ++ b) (a' ++ b') = sqrt (er n a a' * er n a a' + er m b b' * er m b b').
Proof.
  intros Ha Ha'. unfold er. rewrite <- (sqrt_square (energy (n + m) _)) by apply energy_nonneg. f_equal. rewrite energy_app.
  f_equal; f_equal; apply energy_ext; intros i Hi;
    rewrite ?app_nth1, ?app_nth2 by lia; rewrite ?Ha, ?Ha'; now replace (n + i - n)%nat with i by lia.
Qed.
Lemma en_app n m a b : length a = n ->
  en (n + m) (a ++ b) = sqrt (en n a * en n a + en m b * en m b).
Proof.
  intros Ha. unfold en. rewrite <- (sqrt_square (energy (n + m) _)) by apply energy_nonneg. f_equal. rewrite energy_app.
  f_equal; f_equal; apply energy_ext; intros i Hi;
    rewrite ?app_nth1, ?app_nth2 by lia; rewrite ?Ha; now replace (n + i - n)%nat with i by lia.
Qed.

Lemma hyp_le a b c d : 0 <= a <= c -> 0 <= b <= d -> sqrt (a * a + b * b) <= sqrt (c * c + d * d).
Proof. intros. apply sqrt_le_1_alt. nra. Qed.
Lemma hyp_scal c a b : 0 <= c -> sqrt (c * a * (c * a) + c * b * (c * b)) = c * sqrt (a * a + b * b).
Proof.
  intros. replace (c * a * (c * a) + c * b * (c * b)) with ((c * c) * (a * a + b * b)) by ring.
  rewrite sqrt_mult_alt by nra. now rewrite sqrt_square.
Qed.
Lemma hyp_lin al be p X1 X2 a1 a2 e1 e2 : 0 <= al -> 0 <= be -> 0 <= p ->
  0 <= X1 -> 0 <= X2 -> 0 <= a1 -> 0 <= a2 -> 0 <= e1 -> 0 <= e2 ->
  X1 <= al * a1 + be * e1 + p -> X2 <= al * a2 + be * e2 + p ->
  sqrt (X1 * X1 + X2 * X2) <= al * sqrt (a1 * a1 + a2 * a2) + be * sqrt (e1 * e1 + e2 * e2) + sqrt 2 * p.
Proof.
  intros Hal Hbe Hp H1 H2 A1 A2 E1 E2 L1 L2.
  assert (0 <= al * a1) by now apply Rmult_le_pos. assert (0 <= al * a2) by now apply Rmult_le_pos.
  assert (0 <= be * e1) by now apply Rmult_le_pos. assert (0 <= be * e2) by now apply Rmult_le_pos.
  eapply Rle_trans; [apply hyp_le with (c := al * a1 + be * e1 + p) (d := al * a2 + be * e2 + p); lra|].
  eapply Rle_trans; [apply (hyp_add (al * a1 + be * e1) p (al * a2 + be * e2) p); lra|].
  eapply Rle_trans; [apply Rplus_le_compat_r, (hyp_add (al * a1) (be * e1) (al * a2) (be * e2)); lra|].
  rewrite !hyp_scal by auto. right. f_equal. replace (p * p + p * p) with (2 * (p * p)) by ring.
  rewrite sqrt_mult_alt by lra. now rewrite sqrt_square.
Qed.

(** the energy doubles in an exact butterfly *)
Definition bfly (h : nat) (a : nat -> R * R) (i : nat) : R :=
  if (i <? h)%nat then modulus (@cadd Rarith (a i) (a (i + h)%nat))
  else modulus (@csub Rarith (a (i - h)%nat) (a i)).
Lemma bfly_nonneg h a i : 0 <= bfly h a i.
Proof. unfold bfly. destruct (i <? h)%nat; apply modulus_nonneg. Qed.
Lemma bfly_energy h a : energy (h + h) (bfly h a) = sqrt 2 * energy (h + h) (fun i => modulus (a i)).
Proof.
  unfold energy. rewrite <- sqrt_mult_alt by lra. f_equal. rewrite !rsum_app.
  rewrite <- !rsum_plus, <- rsum_scal. apply rsum_ext. intros i Hi. unfold bfly.
  destruct (Nat.ltb_spec i h); [|lia]. destruct (Nat.ltb_spec (h + i) h); [lia|].
  replace (h + i - h)%nat with i by lia. replace (i + h)%nat with (h + i)%nat by lia.
  rewrite !modulus_sq. cbn. ring.
Qed.

Section FFT.
  Variables (pow : R * R -> nat -> R * R) (k0 : nat) (tau : R).
  Notation F := (SingleWith pow).
  Hypothesis Hpow : pow_accurate pow (@cis F) (@cis_neg F) k0 tau.
  Hypothesis Htau : 0 <= tau <= / 4.
  Definition gfac : R := tau + 12 * u24.
  Notation g := gfac.

  Lemma g_pos : 0 <= g. Proof. unfold gfac. pose proof u24_pos. lra. Qed.
  Lemma fwd_coef : (1 + tau) * (1 + 2 * u24) * (1 + 5 * u24) <= 1 + g.
  Proof. unfold gfac, u24. lra. Qed.

  (** exact roots of unity *)
  Lemma unit_root_neg n e : (0 < n)%nat -> modulus (@cpow Rarith (@cis_neg Rarith n) e) = 1.
  Proof.
    intros Hn. induction e as [|e IH]; cbn [cpow].
    - unfold modulus. cbn. replace (1 * 1 + 0 * 0) with 1 by ring. apply sqrt_1.
    - rewrite modulus_mul, IH. unfold modulus. pose proof (law_unit Rarith Rarith_laws n Hn) as E.
      rewrite Rmult_1_r. rewrite <- sqrt_1 at 1. apply f_equal. cbn in *. rewrite <- E. ring.
  Qed.
  Lemma unit_root n e : (0 < n)%nat -> modulus (@cpow Rarith (@cis Rarith n) e) = 1.
  Proof.
    intros Hn. induction e as [|e IH]; cbn [cpow].
    - unfold modulus. cbn. replace (1 * 1 + 0 * 0) with 1 by ring. apply sqrt_1.
    - rewrite modulus_mul, IH. unfold modulus. pose proof (law_unit Rarith Rarith_laws n Hn) as E.
      rewrite Rmult_1_r. rewrite <- sqrt_1 at 1. apply f_equal. cbn in *. rewrite <- E. ring.
  Qed.

  (** one butterfly *)
  Lemma lo_err (x y x' y' : R * R) : forall al de, modulus (@cadd Rarith x' y') = al ->
    cdist (@cadd Rarith x y) (@cadd Rarith x' y') = de ->
    cdist (@cadd F x y) (@cadd Rarith x' y') <= (1 + g) * de + g * al + g * phi.
  Proof.
    intros al de Ea Ed. pose proof phi_pos. pose proof u24_pos.
    pose proof (cdist_bound (@cadd Rarith x y) (@cadd Rarith x' y')) as B. rewrite Ea, Ed in B.
    assert (0 <= al) by (subst al; apply modulus_nonneg). assert (0 <= de) by (subst de; apply cdist_nonneg).
    pose proof (cadd_err pow x y (al + de + phi) ltac:(lra) ltac:(lra)) as E.
    pose proof (cdist_tri (@cadd F x y) (@cadd Rarith x y) (@cadd Rarith x' y')) as T. rewrite Ed in T.
    assert (2 * u24 <= g) by (unfold gfac; lra).
    assert (2 * u24 * (al + de + phi) <= g * (al + de + phi)) by (apply Rmult_le_compat_r; lra). lra.
  Qed.
  Lemma hi_err (x y x' y' w w' : R * R) : forall al de, modulus (@csub Rarith x' y') = al ->
    cdist (@csub Rarith x y) (@csub Rarith x' y') = de -> modulus w' = 1 -> cdist w w' <= tau ->
    cdist (@cmul F (@csub F x y) w) (@cmul Rarith (@csub Rarith x' y') w') <= (1 + g) * de + g * al + g * phi.
  Proof.
    intros al de Ea Ed Hw' Hw. pose proof phi_pos. pose proof u24_pos.
    pose proof (cdist_bound (@csub Rarith x y) (@csub Rarith x' y')) as B. rewrite Ea, Ed in B.
    assert (0 <= al) by (subst al; apply modulus_nonneg). assert (0 <= de) by (subst de; apply cdist_nonneg).
    pose proof (csub_err pow x y (al + de + phi) ltac:(lra) ltac:(lra)) as E.
    set (d := @csub F x y) in *. set (d' := @csub Rarith x' y') in *.
    pose proof (cdist_tri d (@csub Rarith x y) d') as T. rewrite Ed in T.
    pose proof (cdist_bound d d') as Bd. rewrite Ea in Bd.
    pose proof (cdist_bound w w') as Bw. rewrite Hw' in Bw.
    assert (Mw : modulus w <= 1 + tau) by lra.
    pose proof (modulus_nonneg d) as Nd. pose proof (modulus_nonneg w) as Nw.
    pose proof (cdist_nonneg d d') as Ndd.
    set (s := al + de) in *. set (D := de + 2 * u24 * (s + phi)) in *.
    assert (TD : cdist d d' <= D) by (unfold D; lra).
    assert (MD : modulus d <= al + D) by lra.
    assert (HM : modulus d * modulus w <= (al + D) * (1 + tau)) by (apply Rmult_le_compat; lra).
    assert (0 <= D) by lra.
    assert (0 <= (al + D) * (1 + tau)) by (apply Rmult_le_pos; lra).
    pose proof (cmul_err pow d w ((al + D) * (1 + tau) + phi) ltac:(lra) ltac:(lra)) as E2.
    pose proof (cmul_pert d w d' w') as P2. rewrite Ea in P2.
    pose proof (cdist_tri (@cmul F d w) (@cmul Rarith d w) (@cmul Rarith d' w')) as T2.
    assert (cdist d d' * modulus w <= D * (1 + tau)) by (apply Rmult_le_compat; lra).
    assert (al * cdist w w' <= al * tau) by (apply Rmult_le_compat_l; lra).
    (* collect *)
    assert (Tot : cdist (@cmul F d w) (@cmul Rarith d' w')
      <= (1 + tau) * (1 + 5 * u24) * (al + D) - al + 5 * u24 * phi) by lra.
    assert (HD : al + D = s * (1 + 2 * u24) + 2 * u24 * phi) by (unfold D, s; ring).
    rewrite HD in Tot.
    assert (C1 : (1 + tau) * (1 + 5 * u24) * (s * (1 + 2 * u24)) <= s * (1 + g)).
    { replace ((1 + tau) * (1 + 5 * u24) * (s * (1 + 2 * u24))) with (s * ((1 + tau) * (1 + 2 * u24) * (1 + 5 * u24))) by ring.
      apply Rmult_le_compat_l; [unfold s; lra|apply fwd_coef]. }
    assert (C2 : (1 + tau) * (1 + 5 * u24) * (2 * u24 * phi) + 5 * u24 * phi <= g * phi).
    { replace ((1 + tau) * (1 + 5 * u24) * (2 * u24 * phi) + 5 * u24 * phi)
        with (((1 + tau) * (1 + 5 * u24) * (2 * u24) + 5 * u24) * phi) by ring.
      apply Rmult_le_compat_r; [lra|]. unfold gfac, u24. lra. }
    eapply Rle_trans; [exact Tot|].
    replace ((1 + g) * de + g * al + g * phi) with (s * (1 + g) - al + g * phi) by (unfold s; ring). lra.
  Qed.

  Lemma modulus_diff_add a b a' b' : modulus (@cadd Rarith (@csub Rarith a a') (@csub Rarith b b'))
    = cdist (@cadd Rarith a b) (@cadd Rarith a' b').
  Proof. unfold cdist. apply (f_equal modulus). unfold cadd, csub. cbn. f_equal; ring. Qed.
  Lemma modulus_diff_sub a b a' b' : modulus (@csub Rarith (@csub Rarith a a') (@csub Rarith b b'))
    = cdist (@csub Rarith a b) (@csub Rarith a' b').
  Proof. unfold cdist. apply (f_equal modulus). unfold cadd, csub. cbn. f_equal; ring. Qed.

  Lemma pass_err j (x x' : list (R * R)) : (j < k0)%nat -> let h := (2 ^ j)%nat in
    er (h + h) (@app (R * R) (@lo F h x) (@hi F h x)) (@app (R * R) (@lo Rarith h x') (@hi Rarith h x'))
    <= sqrt 2 * (g * (en (h + h) x' + sqrt (INR h) * phi) + (1 + g) * er (h + h) x x').
  Proof.
    intros Hj h. pose proof g_pos as Hg. pose proof phi_pos as Hphi.
    set (dd := fun i => @csub Rarith (nth i x (0, 0)) (nth i x' (0, 0))).
    set (aa := fun i => nth i x' (0, 0)).
    assert (Hpt : forall i, (i < h + h)%nat ->
      cdist (nth i (@app (R * R) (@lo F h x) (@hi F h x)) (0, 0)) (nth i (@app (R * R) (@lo Rarith h x') (@hi Rarith h x')) (0, 0))
      <= (1 + g) * bfly h dd i + (g * bfly h aa i + g * phi)).
    { intros i Hi. unfold bfly, dd, aa. destruct (Nat.ltb_spec i h).
      - rewrite !app_nth1 by (unfold lo; rewrite tab_length; lia). unfold lo. rewrite !tab_nth by lia.
        rewrite modulus_diff_add. pose proof (lo_err (nth i x (0,0)) (nth (i + h) x (0,0)) (nth i x' (0,0)) (nth (i + h) x' (0,0)) _ _ eq_refl eq_refl) as E.
        eapply Rle_trans; [exact E|]. lra.
      - rewrite !app_nth2 by (unfold lo; rewrite tab_length; lia). unfold lo. rewrite !tab_length. unfold hi.
        rewrite !tab_nth by lia. rewrite modulus_diff_sub.
        destruct (Hpow j (i - h)%nat Hj ltac:(fold h; lia)) as [Hw _]. fold h in Hw.
        replace (i - h + h)%nat with i by lia.
        assert (E := hi_err (nth (i - h) x (0,0)) (nth i x (0,0)) (nth (i - h) x' (0,0)) (nth i x' (0,0)) _ _ _ _ eq_refl eq_refl
          (unit_root_neg (2 * h) (i - h) ltac:(lia)) Hw).
        rewrite <- (law_pow Rarith Rarith_laws) in E. eapply Rle_trans; [exact E|]. lra. }
    unfold er at 1. eapply Rle_trans.
    { apply energy_le with (g := fun i => (1 + g) * bfly h dd i + (g * bfly h aa i + g * phi)).
      intros i Hi. split; [apply cdist_nonneg|now apply Hpt]. }
    eapply Rle_trans; [apply energy_add|]. rewrite energy_scal by lra.
    eapply Rle_trans; [apply Rplus_le_compat_l, energy_add|]. rewrite energy_scal by lra.
    rewrite energy_const by (apply Rmult_le_pos; lra).
    rewrite !bfly_energy. 
    change (energy (h + h) (fun i => modulus (aa i))) with (en (h + h) x').
    change (energy (h + h) (fun i => modulus (dd i))) with (er (h + h) x x').
    replace (INR (h + h)) with (2 * INR h) by (rewrite plus_INR; ring).
    rewrite sqrt_mult_alt by lra. right. ring.
  Qed.

  Definition rN (k : nat) : R := sqrt (INR (2 ^ k)).
  Lemma rN_S k : rN (S k) = sqrt 2 * rN k.
  Proof. unfold rN. rewrite Nat.pow_succ_r', mult_INR, sqrt_mult_alt by (cbn; lra). reflexivity. Qed.
  Lemma rN_pos k : 0 <= rN k. Proof. apply sqrt_pos. Qed.
  Lemma rN_sq k : rN k * rN k = INR (2 ^ k).
  Proof. apply sqrt_sqrt, pos_INR. Qed.
  Lemma c_ge1 k : 1 <= (1 + g) ^ k.
  Proof. apply pow_R1_Rle. pose proof g_pos. lra. Qed.

  (** the exact transform *)
  Lemma pass_energy j (x' : list (R * R)) : let h := (2 ^ j)%nat in
    en (h + h) (@app (R * R) (@lo Rarith h x') (@hi Rarith h x')) = sqrt 2 * en (h + h) x'.
  Proof.
    intros h. unfold en. rewrite <- bfly_energy. apply energy_ext. intros i Hi. unfold bfly.
    destruct (Nat.ltb_spec i h).
    - rewrite app_nth1 by (unfold lo; rewrite tab_length; lia). unfold lo. now rewrite tab_nth by lia.
    - rewrite app_nth2 by (unfold lo; rewrite tab_length; lia). unfold lo. rewrite tab_length. unfold hi.
      rewrite tab_nth by lia. rewrite modulus_mul, (law_pow Rarith Rarith_laws), unit_root_neg by lia.
      replace (i - h + h)%nat with i by lia. apply Rmult_1_r.
  Qed.
  Lemma dif_energy k : forall x', length x' = (2 ^ k)%nat -> en (2 ^ k) (@dif Rarith k x') = rN k * en (2 ^ k) x'.
  Proof.
    induction k as [|k IH]; intros x' Hx.
    - unfold rN. cbn [Nat.pow dif]. change (INR 1) with 1. rewrite sqrt_1. ring.
    - cbn [dif]. assert (E2 : (2 ^ S k = 2 ^ k + 2 ^ k)%nat) by (cbn [Nat.pow]; lia). rewrite E2.
      rewrite en_app by (apply (@dif_length Rarith), (@lo_length Rarith)). rewrite !IH by (apply tab_length).
      rewrite hyp_scal by apply rN_pos. rewrite <- en_app by apply (@lo_length Rarith).
      pose proof (pass_energy k x') as E. cbv zeta in E. rewrite E, rN_S. ring.
  Qed.

  Lemma dif_err k : (k <= k0)%nat -> forall x x' : list (R * R), length x = (2 ^ k)%nat -> length x' = (2 ^ k)%nat ->
    er (2 ^ k) (@dif F k x) (@dif Rarith k x')
    <= rN k * (((1 + g) ^ k - 1) * (en (2 ^ k) x' + rN k * phi) + (1 + g) ^ k * er (2 ^ k) x x').
  Proof.
    induction k as [|k IH]; intros Hk x x' Hx Hx'.
    - unfold rN. cbn [Nat.pow dif]. change (INR 1) with 1. rewrite sqrt_1. cbn [Rpow_def.pow]. right. ring.
    - cbn [dif]. assert (E2 : (2 ^ S k = 2 ^ k + 2 ^ k)%nat) by (cbn [Nat.pow]; lia). rewrite E2.
      rewrite er_app by first [apply (@dif_length Rarith), (@lo_length Rarith)|apply (@dif_length F), (@lo_length F)].
      set (h := (2 ^ k)%nat) in *. set (c := (1 + g) ^ k). pose proof (c_ge1 k) as Hc. fold c in Hc.
      pose proof g_pos as Hg. pose proof phi_pos as Hphi. pose proof (rN_pos k) as Hr.
      pose proof (IH ltac:(lia) (@lo F h x) (@lo Rarith h x') ltac:(apply tab_length) ltac:(apply tab_length)) as I1.
      pose proof (IH ltac:(lia) (@hi F h x) (@hi Rarith h x') ltac:(apply tab_length) ltac:(apply tab_length)) as I2.
      fold c in I1, I2.
      assert (0 <= rN k * (c - 1)) by (apply Rmult_le_pos; lra).
      assert (0 <= rN k * c) by (apply Rmult_le_pos; lra).
      eapply Rle_trans.
      { apply hyp_lin with (al := rN k * (c - 1)) (be := rN k * c) (p := rN k * (c - 1) * (rN k * phi))
          (a1 := en h (@lo Rarith h x')) (a2 := en h (@hi Rarith h x'))
          (e1 := er h (@lo F h x) (@lo Rarith h x')) (e2 := er h (@hi F h x) (@hi Rarith h x'));
          auto using en_nonneg, er_nonneg.
        - apply Rmult_le_pos; auto. apply Rmult_le_pos; lra.
        - eapply Rle_trans; [exact I1|]. right. ring.
        - eapply Rle_trans; [exact I2|]. right. ring. }
      rewrite <- en_app by apply (@lo_length Rarith). rewrite <- er_app by first [apply (@lo_length Rarith)|apply (@lo_length F)].
      pose proof (pass_energy k x') as Epe. cbv zeta in Epe. fold h in Epe. rewrite Epe.
      pose proof (pass_err k x x' ltac:(lia)) as Ppe. cbv zeta in Ppe. fold h in Ppe.
      change (sqrt (INR h)) with (rN k) in Ppe.
      eapply Rle_trans; [apply Rplus_le_compat_r, Rplus_le_compat_l, Rmult_le_compat_l; [auto|exact Ppe]|].
      rewrite rN_S. cbn [Rpow_def.pow]. fold c.
      pose proof (en_nonneg (h + h) x') as NA. pose proof (er_nonneg (h + h) x x') as NE.
      set (A := en (h + h) x') in *. set (E := er (h + h) x x') in *. set (q := sqrt 2).
      assert (Hq : 1 <= q). { unfold q. rewrite <- sqrt_1. apply sqrt_le_1_alt. lra. }
      assert (Hrem : rN k * phi <= q * rN k * phi).
      { rewrite Rmult_assoc. rewrite <- (Rmult_1_l (rN k * phi)) at 1. apply Rmult_le_compat_r; [|lra].
        apply Rmult_le_pos; lra. }
      assert (Hq0 : 0 <= q * rN k) by (apply Rmult_le_pos; lra).
      replace (q * rN k * (((1 + g) * c - 1) * (A + q * rN k * phi) + (1 + g) * c * E))
        with (rN k * (c - 1) * (q * A) + rN k * c * (q * (g * (A + q * rN k * phi) + (1 + g) * E)) + q * (rN k * (c - 1) * (q * rN k * phi))) by ring.
      assert (0 <= rN k * phi) by (apply Rmult_le_pos; lra).
      apply Rplus_le_compat.
      + apply Rplus_le_compat_l. apply Rmult_le_compat_l; auto. apply Rmult_le_compat_l; [lra|].
        apply Rplus_le_compat_r, Rmult_le_compat_l; lra.
      + apply Rmult_le_compat_l; [lra|]. apply Rmult_le_compat_l; auto.
  Qed.

  (** ** the inverse transform: [x'] is at most [w] and [x] within [s - w] of it *)
  Definition near (x x' : R * R) (w s : R) : Prop := modulus x' <= w /\ cdist x x' <= s - w.

  Lemma inv_coef : (1 + 2 * u24) * ((1 + 2 * u24) * ((1 + tau) * (1 + 5 * u24))) <= 1 + g.
  Proof. unfold gfac, u24. lra. Qed.

  Lemma near_le x x' w s : near x x' w s -> 0 <= w <= s /\ modulus x <= s.
  Proof.
    intros [H1 H2]. pose proof (modulus_nonneg x'). pose proof (cdist_nonneg x x').
    pose proof (cdist_bound x x'). lra.
  Qed.
  Lemma near_weaken x x' w s s' : near x x' w s -> s <= s' -> near x x' w s'.
  Proof. intros [H1 H2] H. split; auto. lra. Qed.

  Lemma near_add x x' y y' a s b t : near x x' a s -> near y y' b t -> phi <= a + b ->
    near (@cadd F x y) (@cadd Rarith x' y') (a + b) ((1 + 2 * u24) * (s + t)).
  Proof.
    intros Hx Hy Hp. destruct (near_le _ _ _ _ Hx) as [Ls Mx]. destruct (near_le _ _ _ _ Hy) as [Lt My].
    destruct Hx as [X1 X2], Hy as [Y1 Y2]. pose proof phi_pos. split.
    - eapply Rle_trans; [apply (modulus_add x' y')|lra].
    - pose proof (modulus_add x y) as B.
      pose proof (cadd_err pow x y (s + t) ltac:(unfold cadd; cbn; lra) ltac:(lra)) as E.
      pose proof (cdist_tri (@cadd F x y) (@cadd Rarith x y) (@cadd Rarith x' y')) as T.
      pose proof (cadd_pert x y x' y'). lra.
  Qed.
  Lemma near_sub x x' y y' a s b t : near x x' a s -> near y y' b t -> phi <= a + b ->
    near (@csub F x y) (@csub Rarith x' y') (a + b) ((1 + 2 * u24) * (s + t)).
  Proof.
    intros Hx Hy Hp. destruct (near_le _ _ _ _ Hx) as [Ls Mx]. destruct (near_le _ _ _ _ Hy) as [Lt My].
    destruct Hx as [X1 X2], Hy as [Y1 Y2]. pose proof phi_pos. split.
    - eapply Rle_trans; [apply (modulus_sub x' y')|lra].
    - pose proof (modulus_sub x y) as B.
      pose proof (csub_err pow x y (s + t) ltac:(unfold csub; cbn; lra) ltac:(lra)) as E.
      pose proof (cdist_tri (@csub F x y) (@csub Rarith x y) (@csub Rarith x' y')) as T.
      pose proof (csub_pert x y x' y'). lra.
  Qed.
  Lemma near_mul x x' y y' a s b t : near x x' a s -> near y y' b t -> phi <= a * b ->
    near (@cmul F x y) (@cmul Rarith x' y') (a * b) ((1 + 5 * u24) * (s * t)).
  Proof.
    intros Hx Hy Hp. destruct (near_le _ _ _ _ Hx) as [Ls Mx]. destruct (near_le _ _ _ _ Hy) as [Lt My].
    destruct Hx as [X1 X2], Hy as [Y1 Y2]. pose proof phi_pos.
    pose proof (modulus_nonneg x). pose proof (modulus_nonneg y). pose proof (modulus_nonneg x').
    pose proof (modulus_nonneg y'). pose proof (cdist_nonneg x x'). pose proof (cdist_nonneg y y'). split.
    - rewrite modulus_mul. apply Rmult_le_compat; lra.
    - assert (a * b <= s * t) by (apply Rmult_le_compat; lra).
      pose proof (cmul_err pow x y (s * t) ltac:(apply Rmult_le_compat; lra) ltac:(lra)) as E.
      pose proof (cdist_tri (@cmul F x y) (@cmul Rarith x y) (@cmul Rarith x' y')) as T.
      pose proof (cmul_pert x y x' y') as P.
      assert (cdist x x' * modulus y <= (s - a) * t) by (apply Rmult_le_compat; lra).
      assert (modulus x' * cdist y y' <= a * (t - b)) by (apply Rmult_le_compat; lra). lra.
  Qed.
  Lemma near_half x x' a s : near x x' a s -> 2 * phi <= a ->
    near (@cscale F x (1 / 2)) (@cscale Rarith x' (1 / 2)) (a / 2) ((1 + 2 * u24) * (s / 2)).
  Proof.
    intros Hx Hp. destruct (near_le _ _ _ _ Hx) as [Ls Mx]. destruct Hx as [X1 X2]. pose proof phi_pos.
    assert (Hh : Rabs (1 / 2) = / 2) by (rewrite Rabs_pos_eq; lra). split.
    - rewrite modulus_scale, Hh. lra.
    - pose proof (cscale_err pow x (1 / 2) (s / 2) ltac:(rewrite modulus_scale, Hh; lra) ltac:(lra)) as E.
      pose proof (cdist_tri (@cscale F x (1 / 2)) (@cscale Rarith x (1 / 2)) (@cscale Rarith x' (1 / 2))) as T.
      pose proof (cscale_pert x x' (1 / 2)) as P. rewrite Hh in P. lra.
  Qed.

  Lemma inv_step x x' y y' w w' a s b t : near x x' a s -> near y y' b t -> 4 * phi <= a -> 4 * phi <= b ->
    modulus w' = 1 -> cdist w w' <= tau ->
    near (@cscale F (@cadd F x (@cmul F y w)) shalf) (@cscale Rarith (@cadd Rarith x' (@cmul Rarith y' w')) shalf)
         ((a + b) / 2) ((1 + g) * ((s + t) / 2)) /\
    near (@cscale F (@csub F x (@cmul F y w)) shalf) (@cscale Rarith (@csub Rarith x' (@cmul Rarith y' w')) shalf)
         ((a + b) / 2) ((1 + g) * ((s + t) / 2)).
  Proof.
    intros Hx Hy Ha Hb Hw' Hw. pose proof phi_pos. pose proof u24_pos as Hu.
    destruct (near_le _ _ _ _ Hx) as [Ls _]. destruct (near_le _ _ _ _ Hy) as [Lt _].
    assert (Hnw : near w w' 1 (1 + tau)) by (split; lra).
    pose proof (near_mul y y' w w' b t 1 (1 + tau) Hy Hnw ltac:(lra)) as Hp. rewrite Rmult_1_r in Hp.
    set (T := (1 + 5 * u24) * (t * (1 + tau))) in *.
    assert (Ls' : (1 + 2 * u24) * ((1 + 2 * u24) * (s + T) / 2) <= (1 + g) * ((s + t) / 2)).
    { pose proof inv_coef as C.
      assert (HT : s + T <= (1 + tau) * (1 + 5 * u24) * (s + t)).
      { unfold T. assert (1 <= (1 + tau) * (1 + 5 * u24)) by nra. nra. }
      apply Rle_trans with ((1 + 2 * u24) * ((1 + 2 * u24) * ((1 + tau) * (1 + 5 * u24) * (s + t)) / 2)).
      - apply Rmult_le_compat_l; [lra|]. apply Rmult_le_compat_r; [lra|]. apply Rmult_le_compat_l; lra.
      - replace ((1 + 2 * u24) * ((1 + 2 * u24) * ((1 + tau) * (1 + 5 * u24) * (s + t)) / 2))
          with ((1 + 2 * u24) * ((1 + 2 * u24) * ((1 + tau) * (1 + 5 * u24))) * ((s + t) / 2)) by field.
        apply Rmult_le_compat_r; lra. }
    split.
    - eapply near_weaken; [|exact Ls']. apply near_half; [|lra]. apply near_add; auto. lra.
    - eapply near_weaken; [|exact Ls']. apply near_half; [|lra]. apply near_sub; auto. lra.
  Qed.

  Lemma idif_near k : (k <= k0)%nat -> forall (v v' : list (R * R)) (w s : nat -> R),
    length v = (2 ^ k)%nat -> length v' = (2 ^ k)%nat ->
    (forall i, (i < 2 ^ k)%nat -> near (nth i v (0, 0)) (nth i v' (0, 0)) (w i) (s i) /\ 4 * phi <= w i) ->
    forall t, (t < 2 ^ k)%nat ->
      near (nth t (@idif F k v) (0, 0)) (nth t (@idif Rarith k v') (0, 0))
           (rsum (2 ^ k) w / INR (2 ^ k)) ((1 + g) ^ k * (rsum (2 ^ k) s / INR (2 ^ k))).
  Proof.
    induction k as [|k IH]; intros Hk v v' w s Hv Hv' H t Ht.
    - cbn [Nat.pow] in *. assert (t = 0)%nat by lia. subst t. cbn [idif rsum Rpow_def.pow]. change (INR 1) with 1.
      destruct (H 0%nat ltac:(lia)) as [Hn _].
      replace ((0 + w 0%nat) / 1) with (w 0%nat) by field. replace (1 * ((0 + s 0%nat) / 1)) with (s 0%nat) by field.
      exact Hn.
    - assert (E2 : (2 ^ S k = 2 ^ k + 2 ^ k)%nat) by (cbn [Nat.pow]; lia).
      cbn [idif]. set (h := (2 ^ k)%nat) in *.
      assert (Hh : (0 < h)%nat) by (unfold h; clear; induction k; cbn [Nat.pow]; lia).
      assert (Hh' : 0 < INR h) by (apply lt_0_INR; auto).
      assert (I1 := IH ltac:(lia) (firstn h v) (firstn h v') w s
        ltac:(rewrite firstn_length; lia) ltac:(rewrite firstn_length; lia)).
      assert (I2 := IH ltac:(lia) (skipn h v) (skipn h v') (fun i => w (h + i)%nat) (fun i => s (h + i)%nat)
        ltac:(rewrite skipn_length; lia) ltac:(rewrite skipn_length; lia)).
      specialize (I1 ltac:(intros i Hi; rewrite !nth_firstn'; destruct (Nat.ltb_spec i h); [apply H; lia|lia])).
      specialize (I2 ltac:(intros i Hi; rewrite !nth_skipn'; apply H; lia)).
      set (a := rsum h w / INR h) in *. set (b := rsum h (fun i => w (h + i)%nat) / INR h) in *.
      set (c := (1 + g) ^ k) in *.
      assert (Fa : 4 * phi <= a).
      { unfold a. apply Rmult_le_reg_r with (INR h); auto.
        replace (rsum h w / INR h * INR h) with (rsum h w) by (field; lra).
        rewrite Rmult_comm, <- rsum_const. apply rsum_le. intros i Hi. apply H. lia. }
      assert (Fb : 4 * phi <= b).
      { unfold b. apply Rmult_le_reg_r with (INR h); auto.
        replace (rsum h (fun i => w (h + i)%nat) / INR h * INR h) with (rsum h (fun i => w (h + i)%nat)) by (field; lra).
        rewrite Rmult_comm, <- rsum_const. apply rsum_le. intros i Hi. apply H. lia. }
      assert (EW : rsum (2 ^ S k) w / INR (2 ^ S k) = (a + b) / 2).
      { rewrite E2, rsum_app, plus_INR. unfold a, b. field. lra. }
      assert (ES : (1 + g) ^ S k * (rsum (2 ^ S k) s / INR (2 ^ S k))
        = (1 + g) * ((c * (rsum h s / INR h) + c * (rsum h (fun i => s (h + i)%nat) / INR h)) / 2)).
      { rewrite E2, rsum_app, plus_INR. unfold c. cbn [Rpow_def.pow]. field. lra. }
      rewrite EW, ES.
      set (q := (if t <? h then t else t - h)%nat).
      assert (Hq : (q < h)%nat) by (unfold q; destruct (Nat.ltb_spec t h); lia).
      destruct (Hpow k q ltac:(lia) Hq) as [_ Hw]. fold h in Hw.
      destruct (inv_step _ _ _ _ _ _ _ _ _ _ (I1 q Hq) (I2 q Hq) Fa Fb (unit_root (2 * h) q ltac:(lia)) Hw) as [S1 S2].
      unfold merge. rewrite <- !(law_pow Rarith Rarith_laws) in S1, S2. unfold q in *.
      destruct (Nat.ltb_spec t h).
      + rewrite !app_nth1 by (rewrite tab_length; lia). rewrite !tab_nth by lia. exact S1.
      + rewrite !app_nth2 by (rewrite tab_length; lia). rewrite !tab_length. rewrite !tab_nth by lia. exact S2.
  Qed.
End FFT.

(** * Sums, energies, moduli *)
From Coq Require Import Reals Lra Lia Psatz.
From Verif.Model Require Import Base Arith ArithReal.
From Verif.Spec Require Import Transform Precision.
Open Scope R_scope.

Lemma rsum_ext n f g : (forall i, (i < n)%nat -> f i = g i) -> rsum n f = rsum n g.
Proof. induction n; intros H; cbn; auto. rewrite IHn, H; auto. Qed.
Lemma rsum_le n f g : (forall i, (i < n)%nat -> f i <= g i) -> rsum n f <= rsum n g.
Proof.
  induction n; intros H; cbn; [lra|]. assert (f n <= g n) by (apply H; lia).
  assert (rsum n f <= rsum n g) by (apply IHn; intros; apply H; lia). lra.
Qed.
Lemma rsum_plus n f g : rsum n (fun i => f i + g i) = rsum n f + rsum n g.
Proof. induction n; cbn; [ring|]. rewrite IHn. ring. Qed.
Lemma rsum_minus n f g : rsum n (fun i => f i - g i) = rsum n f - rsum n g.
Proof. induction n; cbn; [ring|]. rewrite IHn. ring. Qed.
Lemma rsum_scal n c f : rsum n (fun i => c * f i) = c * rsum n f.
Proof. induction n; cbn; [ring|]. rewrite IHn. ring. Qed.
Lemma rsum_const n c : rsum n (fun _ => c) = INR n * c.
Proof. induction n; [cbn; ring|]. rewrite S_INR. cbn [rsum]. rewrite IHn. ring. Qed.
Lemma rsum_nonneg n f : (forall i, (i < n)%nat -> 0 <= f i) -> 0 <= rsum n f.
Proof. intros H. replace 0 with (rsum n (fun _ => 0)). - now apply rsum_le. - rewrite rsum_const. ring. Qed.
Lemma rsum_app n m f : rsum (n + m) f = rsum n f + rsum m (fun i => f (n + i)%nat).
Proof. induction m; cbn; [rewrite Nat.add_0_r; ring|]. rewrite Nat.add_succ_r. cbn. rewrite IHm. ring. Qed.
Lemma rsum_swap n m f : rsum n (fun i => rsum m (fun j => f i j)) = rsum m (fun j => rsum n (fun i => f i j)).
Proof.
  induction n; cbn.
  - rewrite rsum_const. ring.
  - rewrite IHn, <- rsum_plus. apply rsum_ext. reflexivity.
Qed.
Lemma rsum_abs n f : Rabs (rsum n f) <= rsum n (fun i => Rabs (f i)).
Proof.
  induction n; cbn; [rewrite Rabs_R0; lra|]. eapply Rle_trans; [apply Rabs_triang|]. lra.
Qed.
Lemma ssum_rsum n f : @ssum Rarith n f = rsum n f.
Proof. induction n as [|n IH]; [reflexivity|]. cbn [ssum rsum]. now rewrite IH. Qed.

(** ** energy *)
Lemma sq_nonneg n f : 0 <= rsum n (fun i => f i * f i).
Proof. apply rsum_nonneg. intros. nra. Qed.
Lemma energy_nonneg n f : 0 <= energy n f.
Proof. apply sqrt_pos. Qed.
Lemma energy_sq n f : energy n f * energy n f = rsum n (fun i => f i * f i).
Proof. apply sqrt_sqrt, sq_nonneg. Qed.
Lemma energy_ext n f g : (forall i, (i < n)%nat -> f i = g i) -> energy n f = energy n g.
Proof. intros H. unfold energy. f_equal. apply rsum_ext. intros. now rewrite H. Qed.
Lemma energy_le n f g : (forall i, (i < n)%nat -> 0 <= f i <= g i) -> energy n f <= energy n g.
Proof. intros H. apply sqrt_le_1_alt, rsum_le. intros i Hi. specialize (H i Hi). nra. Qed.
Lemma sq_le a b : 0 <= b -> a * a <= b * b -> a <= b.
Proof. intros. nra. Qed.

Lemma cauchy n f g : rsum n (fun i => f i * g i) <= energy n f * energy n g.
Proof.
  induction n; cbn [rsum].
  - apply Rmult_le_pos; apply energy_nonneg.
  - pose proof (energy_sq n f) as Ef. pose proof (energy_sq n g) as Eg.
    pose proof (energy_sq (S n) f) as Ef'. pose proof (energy_sq (S n) g) as Eg'. cbn [rsum] in Ef', Eg'.
    pose proof (energy_nonneg n f). pose proof (energy_nonneg n g).
    pose proof (energy_nonneg (S n) f). pose proof (energy_nonneg (S n) g).
    rewrite <- Ef in Ef'. rewrite <- Eg in Eg'.
    set (a := energy n f) in *. set (b := energy n g) in *.
    set (A := energy (S n) f) in *. set (B := energy (S n) g) in *.
    set (p := f n) in *. set (q := g n) in *. clearbody a b A B p q.
    assert (a * b + p * q <= A * B); [|lra].
    apply sq_le; [nra|].
    replace (A * B * (A * B)) with ((A * A) * (B * B)) by ring. rewrite Ef', Eg'.
    pose proof (Rle_0_sqr (a * q - b * p)) as Hs. unfold Rsqr in Hs. nra.
Qed.

Lemma energy_add n f g : energy n (fun i => f i + g i) <= energy n f + energy n g.
Proof.
  pose proof (energy_nonneg n f). pose proof (energy_nonneg n g).
  apply sq_le; [lra|]. rewrite energy_sq.
  rewrite (rsum_ext n _ (fun i => f i * f i + (2 * (f i * g i) + g i * g i))) by (intros; ring).
  rewrite !rsum_plus, rsum_scal, <- !energy_sq. pose proof (cauchy n f g). nra.
Qed.
Lemma energy_scal n c f : 0 <= c -> energy n (fun i => c * f i) = c * energy n f.
Proof.
  intros Hc. unfold energy. rewrite (rsum_ext n _ (fun i => (c * c) * (f i * f i))) by (intros; ring).
  rewrite rsum_scal, sqrt_mult_alt by nra. now rewrite sqrt_square.
Qed.
Lemma energy_const n c : 0 <= c -> energy n (fun _ => c) = sqrt (INR n) * c.
Proof.
  intros Hc. unfold energy. rewrite rsum_const, sqrt_mult_alt by apply pos_INR. now rewrite sqrt_square.
Qed.
Lemma energy_app n m f : energy (n + m) f * energy (n + m) f
  = energy n f * energy n f + energy m (fun i => f (n + i)%nat) * energy m (fun i => f (n + i)%nat).
Proof. rewrite !energy_sq. apply rsum_app. Qed.
(** pairs *)
Lemma hyp_add a b c d : 0 <= a -> 0 <= b -> 0 <= c -> 0 <= d ->
  sqrt ((a + b) * (a + b) + (c + d) * (c + d)) <= sqrt (a * a + c * c) + sqrt (b * b + d * d).
Proof.
  intros. pose proof (energy_add 2 (fun i => match i with O => a | _ => c end) (fun i => match i with O => b | _ => d end)) as E.
  unfold energy in E. cbn in E. rewrite !Rplus_0_l in E. exact E.
Qed.

(** ** modulus *)
Lemma modulus_nonneg z : 0 <= modulus z.
Proof. apply sqrt_pos. Qed.
Lemma modulus_sq z : modulus z * modulus z = fst z * fst z + snd z * snd z.
Proof. apply sqrt_sqrt. nra. Qed.
Lemma modulus_fst z : Rabs (fst z) <= modulus z.
Proof. apply sq_le; [apply modulus_nonneg|]. rewrite modulus_sq, <- Rabs_mult, Rabs_pos_eq by nra. nra. Qed.
Lemma modulus_snd z : Rabs (snd z) <= modulus z.
Proof. apply sq_le; [apply modulus_nonneg|]. rewrite modulus_sq, <- Rabs_mult, Rabs_pos_eq by nra. nra. Qed.
Lemma modulus_add z w : modulus (fst z + fst w, snd z + snd w) <= modulus z + modulus w.
Proof.
  pose proof (modulus_nonneg z). pose proof (modulus_nonneg w). apply sq_le; [lra|].
  pose proof (modulus_sq z) as Ez. pose proof (modulus_sq w) as Ew.
  rewrite modulus_sq. cbn [fst snd].
  assert (fst z * fst w + snd z * snd w <= modulus z * modulus w).
  { apply sq_le; [nra|]. replace (modulus z * modulus w * (modulus z * modulus w)) with
      ((modulus z * modulus z) * (modulus w * modulus w)) by ring. rewrite Ez, Ew.
    pose proof (Rle_0_sqr (fst z * snd w - snd z * fst w)) as Hs. unfold Rsqr in Hs. nra. }
  nra.
Qed.
Lemma modulus_opp z : modulus (- fst z, - snd z) = modulus z.
Proof. unfold modulus. cbn [fst snd]. f_equal. ring. Qed.
Lemma modulus_sub z w : modulus (fst z - fst w, snd z - snd w) <= modulus z + modulus w.
Proof. rewrite <- (modulus_opp w). exact (modulus_add z (- fst w, - snd w)). Qed.
Lemma modulus_mul z w : modulus (@cmul Rarith z w) = modulus z * modulus w.
Proof.
  unfold modulus. rewrite <- sqrt_mult_alt by nra. f_equal. cbn. ring.
Qed.
Lemma modulus_scale z c : modulus (@cscale Rarith z c) = modulus z * Rabs c.
Proof.
  unfold modulus. rewrite <- (sqrt_square (Rabs c)) by apply Rabs_pos. rewrite <- sqrt_mult_alt by nra.
  f_equal. rewrite <- Rabs_mult, Rabs_pos_eq by nra. cbn. ring.
Qed.
(** both parts small: the modulus is small *)
Lemma modulus_parts z e : Rabs (fst z) <= e -> Rabs (snd z) <= e -> modulus z <= 3 / 2 * e.
Proof.
  intros H1 H2. pose proof (Rabs_pos (fst z)). pose proof (Rabs_pos (snd z)). apply sq_le; [lra|].
  rewrite modulus_sq.
  assert (E1 : fst z * fst z = Rabs (fst z) * Rabs (fst z)) by (rewrite <- Rabs_mult, Rabs_pos_eq; nra).
  assert (E2 : snd z * snd z = Rabs (snd z) * Rabs (snd z)) by (rewrite <- Rabs_mult, Rabs_pos_eq; nra).
  rewrite E1, E2. nra.
Qed.
Lemma modulus_creal x : modulus (@creal Rarith x) = Rabs x.
Proof. unfold modulus. cbn. rewrite Rmult_0_l, Rplus_0_r. rewrite <- sqrt_Rsqr_abs. reflexivity. Qed.
Lemma modulus_c0 : modulus (0, 0) = 0.
Proof. unfold modulus. cbn. rewrite Rmult_0_l, Rplus_0_r. apply sqrt_0. Qed.

Lemma cdist_nonneg z w : 0 <= cdist z w.
Proof. apply modulus_nonneg. Qed.
Lemma cdist_same z : cdist z z = 0.
Proof. unfold cdist. rewrite !Rminus_eq_0. apply modulus_c0. Qed.
Lemma cdist_tri a b c : cdist a c <= cdist a b + cdist b c.
Proof.
  unfold cdist. eapply Rle_trans; [|apply modulus_add]. right. cbn [fst snd]. f_equal. f_equal; ring.
Qed.
Lemma cdist_bound a b : modulus a <= modulus b + cdist a b.
Proof.
  unfold cdist. eapply Rle_trans; [|apply modulus_add]. right. cbn [fst snd].
  destruct a as [a1 a2]. cbn [fst snd]. f_equal. f_equal; ring.
Qed.
Lemma cdist_fst a b : Rabs (fst a - fst b) <= cdist a b.
Proof. exact (modulus_fst (fst a - fst b, snd a - snd b)). Qed.

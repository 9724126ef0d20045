(** * Algebra of complex samples, roots of unity and sums *)
From Coq Require Import Ring Setoid.
From Verif.Model Require Import Base Arith.
From Verif.Spec Require Import Transform.

Section Alg.
  Context {A : arith} (L : arith_laws A).

  Let Sring := law_ring A L.
  Add Ring sring : Sring.

  Lemma cplx_eq (a b : cplx A) : fst a = fst b -> snd a = snd b -> a = b.
  Proof. destruct a, b; simpl; intros; now subst. Qed.

  Lemma cring : ring_theory (@c0 A) c1 cadd cmul csub copp eq.
  Proof.
    split; intros; apply cplx_eq; unfold c0, c1, cadd, cmul, csub, copp; simpl; ring.
  Qed.
  Add Ring cring : cring.

  Lemma cscale_half_add (x : cplx A) : cadd (cscale x shalf) (cscale x shalf) = x.
  Proof.
    apply cplx_eq; unfold cadd, cscale; simpl.
    - transitivity (smul (fst x) (sadd shalf shalf)); [ring|]. rewrite (law_half A L). ring.
    - transitivity (smul (snd x) (sadd shalf shalf)); [ring|]. rewrite (law_half A L). ring.
  Qed.
  Lemma cscale_mul (x : cplx A) h : cscale x h = cmul x (creal h).
  Proof. apply cplx_eq; unfold cscale, cmul, creal; simpl; ring. Qed.
  Lemma creal_half_add : cadd (creal shalf) (creal shalf) = @c1 A.
  Proof. unfold cadd, creal, c1; simpl. rewrite (law_half A L). f_equal. ring. Qed.
  Lemma half_double (x : cplx A) : cmul (cadd x x) (creal shalf) = x.
  Proof.
    transitivity (cmul x (cadd (creal shalf) (creal shalf))); [ring|].
    rewrite creal_half_add. ring.
  Qed.

  Lemma conj_mul (a b : cplx A) : conj (cmul a b) = cmul (conj a) (conj b).
  Proof. apply cplx_eq; unfold conj, cmul; simpl; ring. Qed.
  Lemma conj_add (a b : cplx A) : conj (cadd a b) = cadd (conj a) (conj b).
  Proof. apply cplx_eq; unfold conj, cadd; simpl; ring. Qed.
  Lemma conj_sub (a b : cplx A) : conj (csub a b) = csub (conj a) (conj b).
  Proof. apply cplx_eq; unfold conj, csub; simpl; ring. Qed.
  Lemma conj_0 : conj c0 = @c0 A.
  Proof. apply cplx_eq; unfold conj, c0; simpl; ring. Qed.
  Lemma conj_1 : conj c1 = @c1 A.
  Proof. apply cplx_eq; unfold conj, c1; simpl; ring. Qed.
  Lemma conj_conj (a : cplx A) : conj (conj a) = a.
  Proof. apply cplx_eq; unfold conj; simpl; ring. Qed.
  Lemma conj_creal (x : sample A) : conj (creal x) = creal x.
  Proof. apply cplx_eq; unfold conj, creal; simpl; ring. Qed.
  Lemma creal_add (x y : sample A) : creal (sadd x y) = cadd (creal x) (creal y).
  Proof. apply cplx_eq; unfold creal, cadd; simpl; ring. Qed.
  Lemma creal_mul (x y : sample A) : creal (smul x y) = cmul (creal x) (creal y).
  Proof. apply cplx_eq; unfold creal, cmul; simpl; ring. Qed.
  Lemma conj_cis n : conj (cis n) = @cis_neg A n.
  Proof. reflexivity. Qed.
  Lemma conj_cis_neg n : conj (cis_neg n) = @cis A n.
  Proof. rewrite <- conj_cis. apply conj_conj. Qed.

  Lemma cpow_add (w : cplx A) a b : cpow w (a + b) = cmul (cpow w a) (cpow w b).
  Proof. induction a; simpl; [ring|]. rewrite IHa. ring. Qed.
  Lemma cpow_mul_base (u w : cplx A) a : cpow (cmul u w) a = cmul (cpow u a) (cpow w a).
  Proof. induction a; simpl; [ring|]. rewrite IHa. ring. Qed.
  Lemma cpow_c1 a : cpow c1 a = @c1 A.
  Proof. induction a; simpl; [ring|]. rewrite IHa. ring. Qed.
  Lemma cpow_1 (w : cplx A) : cpow w 1 = w.
  Proof. simpl. ring. Qed.
  Lemma cpow_pow (w : cplx A) a b : cpow (cpow w a) b = cpow w (a * b).
  Proof.
    induction b.
    - rewrite Nat.mul_0_r. reflexivity.
    - simpl. rewrite IHb. replace (a * S b) with (a + a * b) by lia. now rewrite cpow_add.
  Qed.
  Lemma conj_pow (w : cplx A) a : conj (cpow w a) = cpow (conj w) a.
  Proof. induction a; simpl; [apply conj_1|]. now rewrite conj_mul, IHa. Qed.

  Lemma cis_unit n : 0 < n -> cmul (cis n) (cis_neg n) = @c1 A.
  Proof.
    intros Hn. unfold cis, cis_neg, cmul, c1. simpl. f_equal; [|ring].
    rewrite <- (law_unit A L n Hn). ring.
  Qed.
  Lemma cis_neg_unit n : 0 < n -> cmul (cis_neg n) (cis n) = @c1 A.
  Proof. intros. rewrite <- (cis_unit n) by auto. ring. Qed.
  Lemma cis_neg_sq n : 0 < n -> cmul (cis_neg (2 * n)) (cis_neg (2 * n)) = @cis_neg A n.
  Proof. intros. rewrite <- !conj_cis, <- conj_mul. now rewrite (law_square A L). Qed.
  Lemma cis_neg_1 : cis_neg 1 = @c1 A.
  Proof. rewrite <- conj_cis, (law_cis1 A L). apply conj_1. Qed.
  Lemma cis_neg_2 : cis_neg 2 = @copp A c1.
  Proof.
    rewrite <- conj_cis, (law_cis2 A L). apply cplx_eq; unfold conj, copp, c1; simpl; ring.
  Qed.

  (** powers of the roots of order 2^k *)
  Lemma cis_neg_pow_half k : cpow (cis_neg (2 ^ S k)) (2 ^ k) = @copp A c1.
  Proof.
    induction k.
    - cbn [Nat.pow Nat.mul Nat.add]. rewrite cpow_1. apply cis_neg_2.
    - transitivity (cpow (cpow (@cis_neg A (2 ^ S (S k))) 2) (2 ^ k)).
      { rewrite cpow_pow. reflexivity. }
      replace (cpow (cis_neg (2 ^ S (S k))) 2) with (@cis_neg A (2 ^ S k)).
      + exact IHk.
      + cbn [cpow]. pose proof (cis_neg_sq (2 ^ S k)) as E.
        change (2 * 2 ^ S k) with (2 ^ S (S k)) in E.
        rewrite <- E by (pose proof (Nat.pow_nonzero 2 (S k)); lia). ring.
  Qed.
  Lemma cis_neg_pow_full k : cpow (cis_neg (2 ^ k)) (2 ^ k) = @c1 A.
  Proof.
    destruct k.
    - cbn [Nat.pow]. rewrite cpow_1. apply cis_neg_1.
    - transitivity (cpow (@cis_neg A (2 ^ S k)) (2 ^ k + 2 ^ k)).
      { f_equal. simpl. lia. }
      rewrite cpow_add, cis_neg_pow_half. ring.
  Qed.
  Lemma cis_neg_pow_even k j : cpow (cis_neg (2 ^ S k)) (2 * j) = cpow (@cis_neg A (2 ^ k)) j.
  Proof.
    rewrite <- cpow_pow. f_equal. cbn [cpow]. pose proof (cis_neg_sq (2 ^ k)) as E.
    change (2 * 2 ^ k) with (2 ^ S k) in E.
    rewrite <- E by (pose proof (Nat.pow_nonzero 2 k); lia). ring.
  Qed.
  Lemma cis_neg_pow_mod k e : cpow (@cis_neg A (2 ^ k)) (e mod 2 ^ k) = cpow (cis_neg (2 ^ k)) e.
  Proof.
    rewrite (Nat.div_mod e (2 ^ k)) at 2 by (apply Nat.pow_nonzero; lia).
    rewrite cpow_add, <- cpow_pow, cis_neg_pow_full, cpow_c1. ring.
  Qed.
  Lemma cis_pows n e : 0 < n -> cmul (cpow (cis n) e) (cpow (cis_neg n) e) = @c1 A.
  Proof. intros. rewrite <- cpow_mul_base, cis_unit by auto. apply cpow_c1. Qed.

  (** ** sums *)
  Lemma csum_ext n (f g : nat -> cplx A) : (forall i, i < n -> f i = g i) -> csum n f = csum n g.
  Proof.
    induction n; intros H; simpl; auto. rewrite IHn by (intros; apply H; lia). f_equal.
    apply H; lia.
  Qed.
  Lemma csum_add n (f g : nat -> cplx A) :
    csum n (fun i => cadd (f i) (g i)) = cadd (csum n f) (csum n g).
  Proof. induction n; simpl; [ring|]. rewrite IHn. ring. Qed.
  Lemma csum_sub n (f g : nat -> cplx A) :
    csum n (fun i => csub (f i) (g i)) = csub (csum n f) (csum n g).
  Proof. induction n; simpl; [ring|]. rewrite IHn. ring. Qed.
  Lemma csum_mul_l n (a : cplx A) f : csum n (fun i => cmul a (f i)) = cmul a (csum n f).
  Proof. induction n; simpl; [ring|]. rewrite IHn. ring. Qed.
  Lemma csum_mul_r n (a : cplx A) f : csum n (fun i => cmul (f i) a) = cmul (csum n f) a.
  Proof. induction n; simpl; [ring|]. rewrite IHn. ring. Qed.
  Lemma csum_0 n : csum n (fun _ => @c0 A) = c0.
  Proof. induction n; simpl; [ring|]. rewrite IHn. ring. Qed.
  Lemma csum_app n m (f : nat -> cplx A) :
    csum (n + m) f = cadd (csum n f) (csum m (fun i => f (n + i))).
  Proof.
    induction m; simpl.
    - rewrite Nat.add_0_r. ring.
    - rewrite Nat.add_succ_r. simpl. rewrite IHm. ring.
  Qed.
  Lemma csum_swap n m (f : nat -> nat -> cplx A) :
    csum n (fun i => csum m (fun j => f i j)) = csum m (fun j => csum n (fun i => f i j)).
  Proof.
    induction n; simpl.
    - now rewrite csum_0.
    - now rewrite IHn, csum_add.
  Qed.
  Lemma csum_single n j (f : nat -> cplx A) :
    j < n -> (forall i, i < n -> i <> j -> f i = c0) -> csum n f = f j.
  Proof.
    induction n; intros Hj H; [lia|]. simpl.
    destruct (Nat.eq_dec j n) as [->|].
    - rewrite csum_ext with (g := fun _ => c0) by (intros; apply H; lia).
      rewrite csum_0. ring.
    - rewrite IHn by (try lia; intros; apply H; lia). rewrite (H n) by lia. ring.
  Qed.

  Lemma ssum_ext n (f g : nat -> sample A) : (forall i, i < n -> f i = g i) -> ssum n f = ssum n g.
  Proof.
    induction n; intros H; simpl; auto. rewrite IHn by (intros; apply H; lia). f_equal.
    apply H; lia.
  Qed.
  Lemma ssum_0 n : ssum n (fun _ => @s0 A) = s0.
  Proof. induction n; simpl; [ring|]. rewrite IHn. ring. Qed.
  Lemma ssum_add n (f g : nat -> sample A) :
    ssum n (fun i => sadd (f i) (g i)) = sadd (ssum n f) (ssum n g).
  Proof. induction n; simpl; [ring|]. rewrite IHn. ring. Qed.
  Lemma ssum_mul_l n (a : sample A) f : ssum n (fun i => smul a (f i)) = smul a (ssum n f).
  Proof. induction n; simpl; [ring|]. rewrite IHn. ring. Qed.
  Lemma ssum_app n m (f : nat -> sample A) :
    ssum (n + m) f = sadd (ssum n f) (ssum m (fun i => f (n + i))).
  Proof.
    induction m; simpl.
    - rewrite Nat.add_0_r. ring.
    - rewrite Nat.add_succ_r. simpl. rewrite IHm. ring.
  Qed.
  Lemma ssum_swap n m (f : nat -> nat -> sample A) :
    ssum n (fun i => ssum m (fun j => f i j)) = ssum m (fun j => ssum n (fun i => f i j)).
  Proof.
    induction n; simpl.
    - now rewrite ssum_0.
    - now rewrite IHn, ssum_add.
  Qed.
  Lemma ssum_single n j (f : nat -> sample A) :
    j < n -> (forall i, i < n -> i <> j -> f i = s0) -> ssum n f = f j.
  Proof.
    induction n; intros Hj H; [lia|]. simpl.
    destruct (Nat.eq_dec j n) as [->|].
    - rewrite ssum_ext with (g := fun _ => s0) by (intros; apply H; lia).
      rewrite ssum_0. ring.
    - rewrite IHn by (try lia; intros; apply H; lia). rewrite (H n) by lia. ring.
  Qed.
  Lemma ssum_extend n m (f : nat -> sample A) :
    n <= m -> (forall i, n <= i < m -> f i = s0) -> ssum m f = ssum n f.
  Proof.
    intros Hnm H. replace m with (n + (m - n)) by lia. rewrite ssum_app.
    rewrite ssum_ext with (n := m - n) (g := fun _ => s0) by (intros; apply H; lia).
    rewrite ssum_0. ring.
  Qed.
  Lemma ssum_blocks n m (f : nat -> sample A) :
    ssum (n * m) f = ssum n (fun i => ssum m (fun j => f (i * m + j))).
  Proof.
    induction n; simpl; auto. rewrite Nat.add_comm, ssum_app, IHn. reflexivity.
  Qed.
  Lemma creal_sum n (f : nat -> sample A) : creal (ssum n f) = csum n (fun i => creal (f i)).
  Proof. induction n; simpl; auto. now rewrite creal_add, IHn. Qed.
  Lemma conj_sum n (f : nat -> cplx A) : conj (csum n f) = csum n (fun i => conj (f i)).
  Proof. induction n; simpl; [apply conj_0|]. now rewrite conj_add, IHn. Qed.
End Alg.

(** What rounded arithmetic keeps of the laws: sums, differences and products of zeros. *)
Record zero_laws (A : arith) : Prop := {
  zero_add : sadd s0 s0 = @s0 A;
  zero_sub : ssub s0 s0 = @s0 A;
  zero_mul : forall x, smul s0 x = @s0 A
}.
Lemma laws_zero (A : arith) : arith_laws A -> zero_laws A.
Proof. intros L. pose proof (law_ring A L) as R. destruct R. constructor; auto.
  - rewrite Rsub_def. apply Ropp_def.
  - intros x. set (z := smul s0 x).
    assert (E : sadd z z = z).
    { unfold z. rewrite <- Rdistr_l. now rewrite Radd_0_l. }
    rewrite <- (Radd_0_l z). rewrite <- (Ropp_def z). rewrite (Radd_comm z (sopp z)), <- Radd_assoc, E.
    rewrite Radd_comm. reflexivity.
Qed.
Section ZeroC.
  Context {A : arith} (Z : zero_laws A).
  Lemma cadd_00 : cadd c0 c0 = @c0 A.
  Proof. unfold cadd, c0. cbn [fst snd]. now rewrite (zero_add A Z). Qed.
  Lemma csub_00 : csub c0 c0 = @c0 A.
  Proof. unfold csub, c0. cbn [fst snd]. now rewrite (zero_sub A Z). Qed.
  Lemma cmul_0w (w : cplx A) : cmul c0 w = c0.
  Proof. unfold cmul, c0. cbn [fst snd]. now rewrite !(zero_mul A Z), (zero_sub A Z), (zero_add A Z). Qed.
  Lemma cscale_0x (x : sample A) : cscale c0 x = c0.
  Proof. unfold cscale, c0. cbn [fst snd]. now rewrite !(zero_mul A Z). Qed.
End ZeroC.

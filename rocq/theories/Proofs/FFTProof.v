(** * The recursive transforms: inversion, DFT formula, convolution theorem *)
From Coq Require Import Ring.
From Verif.Model Require Import Base Arith Juce FFT.
From Verif.Spec Require Import Transform.
From Verif.Proofs Require Import Lists ComplexAlg Butterfly.

Lemma pow2_pos k : 0 < 2 ^ k.
Proof. pose proof (Nat.pow_nonzero 2 k). lia. Qed.

Lemma bitrev_lt k p : bitrev k p < 2 ^ k.
Proof.
  revert p; induction k; intros; [simpl; lia|]. specialize (IHk (p / 2)).
  pose proof (Nat.mod_upper_bound p 2) as H. cbn [bitrev]. rewrite Nat.pow_succ_r'.
  set (m := p mod 2) in *. clearbody m. assert (m = 0 \/ m = 1) as [-> | ->] by lia; lia.
Qed.

(** bit reversal seen from the top bit *)
Lemma bitrev_top k b p :
  p < 2 ^ k -> b < 2 -> bitrev (S k) (b * 2 ^ k + p) = 2 * bitrev k p + b.
Proof.
  revert b p; induction k; intros b p Hp Hb.
  - cbn [bitrev]. rewrite Nat.pow_0_r in *. replace (b * 1 + p) with b by lia.
    rewrite Nat.mod_small by lia. lia.
  - change (bitrev (S (S k)) (b * 2 ^ S k + p)) with
      (((b * 2 ^ S k + p) mod 2) * 2 ^ S k + bitrev (S k) ((b * 2 ^ S k + p) / 2)).
    replace (b * 2 ^ S k + p) with (p + (b * 2 ^ k) * 2) by (simpl; lia).
    rewrite Nat.mod_add, Nat.div_add by lia.
    rewrite (Nat.add_comm (p / 2)), IHk; auto.
    + cbn [bitrev]. simpl Nat.pow. lia.
    + apply Nat.div_lt_upper_bound; simpl in Hp; lia.
Qed.

Lemma bitrev_invol k p : p < 2 ^ k -> bitrev k (bitrev k p) = p.
Proof.
  revert p; induction k; intros p Hp.
  - simpl in *. lia.
  - change (bitrev (S k) p) with ((p mod 2) * 2 ^ k + bitrev k (p / 2)).
    rewrite bitrev_top.
    + rewrite IHk.
      * symmetry. apply Nat.div_mod. lia.
      * apply Nat.div_lt_upper_bound; simpl in Hp; lia.
    + apply bitrev_lt.
    + apply Nat.mod_upper_bound; lia.
Qed.

Lemma zipw_tab {T1 T2 T3} (f : T1 -> T2 -> T3) n g h :
  zipw f (tab n g) (tab n h) = tab n (fun i => f (g i) (h i)).
Proof.
  revert g h; induction n; intros; [reflexivity|]. rewrite !tab_S. cbn [zipw]. f_equal. apply IHn.
Qed.

Lemma zipw_length {T1 T2 T3} (f : T1 -> T2 -> T3) l1 l2 :
  length (zipw f l1 l2) = Nat.min (length l1) (length l2).
Proof. revert l2; induction l1; destruct l2; simpl; auto. Qed.

Lemma zipw_nth {T1 T2 T3} (f : T1 -> T2 -> T3) l1 l2 i d1 d2 d3 :
  i < length l1 -> i < length l2 -> nth i (zipw f l1 l2) d3 = f (nth i l1 d1) (nth i l2 d2).
Proof.
  revert l2 i; induction l1; intros l2 i H1 H2; simpl in *; [lia|].
  destruct l2; simpl in *; [lia|]. destruct i; auto. apply IHl1; lia.
Qed.

Lemma zipw_app {T1 T2 T3} (f : T1 -> T2 -> T3) a b c d :
  length a = length c -> zipw f (a ++ b) (c ++ d) = zipw f a c ++ zipw f b d.
Proof. revert c; induction a; destruct c; simpl; intros; try discriminate; auto. f_equal; auto. Qed.

Section FFTProof.
  Context {A : arith} (L : arith_laws A).
  Notation C := (cplx A).
  Add Ring cring2 : (cring L).

  Lemma cis_pows' h q : 0 < h -> cmul (cpow (cis_neg h) q) (cpow (cis h) q) = @c1 A.
  Proof. intros. rewrite <- (cis_pows L h q) by auto. ring. Qed.

  Lemma merge_lo_hi h (x : list C) : 0 < h -> length x = 2 * h -> merge h (lo h x) (hi h x) = x.
  Proof.
    intros Hh Hx. symmetry.
    unfold merge. set (f1 := fun q => _). set (f2 := fun q => cscale (csub _ _) _).
    replace x with (tab (2 * h) (fun i => nth i x c0)) at 1 by (rewrite <- Hx; symmetry; apply tab_of_list).
    rewrite tab_double.
    assert (E : forall q, q < h -> cmul (nth q (hi h x) c0) (spow (cis (2 * h)) q)
                = csub (nth q x c0) (nth (q + h) x c0)).
    { intros q Hq. unfold hi. rewrite tab_nth, !(law_pow A L) by auto.
      set (u := csub _ _).
      transitivity (cmul u (cmul (cpow (cis_neg (2 * h)) q) (cpow (cis (2 * h)) q))); [ring|].
      rewrite cis_pows' by lia. ring. }
    f_equal; apply tab_ext; intros q Hq; unfold f1, f2; rewrite E by auto;
      unfold lo; rewrite tab_nth by auto; rewrite (cscale_mul L).
    - rewrite <- (half_double L (nth q x c0)) at 1. f_equal. ring.
    - rewrite <- (half_double L (nth (h + q) x c0)) at 1. f_equal.
      replace (h + q) with (q + h) by lia. ring.
  Qed.

  Lemma lo_merge h (a b : list C) : length a = h -> lo h (merge h a b) = a.
  Proof.
    intros Ha. symmetry. apply list_tab with (d := c0); auto. intros q Hq.
    unfold merge. rewrite app_nth1 by (rewrite tab_length; lia).
    rewrite app_nth2 by (rewrite tab_length; lia). rewrite !tab_length, !tab_nth by lia.
    replace (q + h - h) with q by lia.
    rewrite !(cscale_mul L). rewrite <- (half_double L (nth q a c0)) at 1. ring.
  Qed.

  Lemma hi_merge h (a b : list C) : length b = h -> hi h (merge h a b) = b.
  Proof.
    intros Hb. symmetry. apply list_tab with (d := c0); auto. intros q Hq.
    unfold merge. rewrite app_nth1 by (rewrite tab_length; lia).
    rewrite app_nth2 by (rewrite tab_length; lia). rewrite !tab_length, !tab_nth by lia.
    replace (q + h - h) with q by lia.
    rewrite !(cscale_mul L), !(law_pow A L).
    set (u := nth q b c0). set (w := cpow (cis (2 * h)) q). set (v := cpow (cis_neg (2 * h)) q).
    transitivity (cmul (cmul (cadd u u) (creal shalf)) (cmul w v)).
    - rewrite (half_double L). unfold w, v. rewrite (cis_pows L) by lia. ring.
    - ring.
  Qed.

  Theorem idif_dif k (x : list C) : length x = 2 ^ k -> idif k (dif k x) = x.
  Proof.
    revert x; induction k; intros x Hx; auto. cbn [idif dif].
    rewrite firstn_app, skipn_app, !dif_length by (apply lo_length || apply hi_length).
    rewrite Nat.sub_diag, firstn_O, skipn_O, app_nil_r.
    rewrite firstn_all2, skipn_all2 by (rewrite dif_length; [lia|apply lo_length]).
    cbn [app]. rewrite !IHk by (apply lo_length || apply hi_length).
    apply merge_lo_hi; auto. apply pow2_pos.
  Qed.

  Theorem dif_idif k (y : list C) : length y = 2 ^ k -> dif k (idif k y) = y.
  Proof.
    revert y; induction k; intros y Hy; auto. cbn [idif dif]. simpl in Hy.
    rewrite lo_merge, hi_merge by (apply idif_length; rewrite ?firstn_length, ?skipn_length; lia).
    rewrite !IHk by (rewrite ?firstn_length, ?skipn_length; lia).
    apply firstn_skipn.
  Qed.

  (** ** the DFT formula *)
  Lemma dft_lo k (x : list C) r : length x = 2 ^ S k ->
    dft (2 ^ k) (lo (2 ^ k) x) r = dft (2 ^ S k) x (2 * r).
  Proof.
    intros Hx. unfold dft. replace (2 ^ S k) with (2 ^ k + 2 ^ k) at 1 by (simpl; lia).
    rewrite (csum_app L), <- (csum_add L). apply csum_ext. intros j Hj.
    unfold lo. rewrite tab_nth by auto.
    replace (j * (2 * r)) with (2 * (j * r)) by lia.
    replace ((2 ^ k + j) * (2 * r)) with (2 * (2 ^ k * r + j * r)) by lia.
    rewrite !(cis_neg_pow_even L), (cpow_add L), <- (cpow_pow L _ (2 ^ k) r), (cis_neg_pow_full L), (cpow_c1 L).
    replace (j + 2 ^ k) with (2 ^ k + j) by lia. ring.
  Qed.

  Lemma dft_hi k (x : list C) r : length x = 2 ^ S k ->
    dft (2 ^ k) (hi (2 ^ k) x) r = dft (2 ^ S k) x (2 * r + 1).
  Proof.
    intros Hx. unfold dft. replace (2 ^ S k) with (2 ^ k + 2 ^ k) at 1 by (simpl; lia).
    rewrite (csum_app L), <- (csum_add L). apply csum_ext. intros j Hj.
    unfold hi. rewrite tab_nth, (law_pow A L) by auto.
    replace (j * (2 * r + 1)) with (2 * (j * r) + j) by lia.
    replace ((2 ^ k + j) * (2 * r + 1)) with (2 * (2 ^ k * r + j * r) + (2 ^ k + j)) by lia.
    rewrite !(cpow_add L), !(cis_neg_pow_even L), (cpow_add L), <- (cpow_pow L _ (2 ^ k) r),
      (cis_neg_pow_full L), (cpow_c1 L), (cis_neg_pow_half L).
    change (2 * 2 ^ k) with (2 ^ S k).
    replace (j + 2 ^ k) with (2 ^ k + j) by lia. ring.
  Qed.

  Theorem dif_dft k (x : list C) p :
    length x = 2 ^ k -> p < 2 ^ k -> nth p (dif k x) c0 = dft (2 ^ k) x (bitrev k p).
  Proof.
    revert x p; induction k; intros x p Hx Hp.
    - simpl in *. assert (p = 0) as -> by lia. cbn. ring.
    - cbn [dif]. rewrite nth_app', dif_length by apply lo_length.
      destruct (Nat.ltb_spec p (2 ^ k)).
      + rewrite IHk by (auto; apply lo_length). rewrite dft_lo by auto. f_equal.
        pose proof (bitrev_top k 0 p). simpl in H0. rewrite <- (Nat.add_0_r (2 * _)).
        symmetry. apply H0; lia.
      + assert (p - 2 ^ k < 2 ^ k) by (simpl in Hp; lia).
        rewrite IHk by (auto; apply hi_length). rewrite dft_hi by auto. f_equal.
        pose proof (bitrev_top k 1 (p - 2 ^ k)) as E.
        replace (1 * 2 ^ k + (p - 2 ^ k)) with p in E by lia. symmetry. apply E; lia.
  Qed.

  Lemma dif_eq k (x y : list C) :
    length x = 2 ^ k -> length y = 2 ^ k ->
    (forall r, r < 2 ^ k -> nth r y c0 = dft (2 ^ k) x (bitrev k r)) -> dif k x = y.
  Proof.
    intros Hx Hy H. apply list_ext with (d := c0).
    - now rewrite dif_length.
    - rewrite dif_length by auto. intros i Hi. rewrite dif_dft by auto. symmetry. auto.
  Qed.

  (** ** linearity *)
  Lemma dft_add n (x y : list C) r m :
    length x = m -> length y = m -> n <= m ->
    dft n (zipw cadd x y) r = cadd (dft n x r) (dft n y r).
  Proof.
    intros Hx Hy Hm. unfold dft. rewrite <- (csum_add L). apply csum_ext. intros j Hj.
    rewrite zipw_nth with (d1 := c0) (d2 := c0) by lia. ring.
  Qed.

  Lemma dif_add k (x y : list C) : length x = 2 ^ k -> length y = 2 ^ k ->
    dif k (zipw cadd x y) = zipw cadd (dif k x) (dif k y).
  Proof.
    intros Hx Hy. apply dif_eq.
    - rewrite zipw_length; lia.
    - rewrite zipw_length, !dif_length; auto; lia.
    - intros r Hr. rewrite (dft_add _ _ _ _ (2 ^ k)) by (auto; lia).
      rewrite zipw_nth with (d1 := c0) (d2 := c0) by (rewrite dif_length; auto).
      now rewrite !dif_dft.
  Qed.

  (** ** circular convolution *)
  (** summing over a full period starting anywhere *)
  Lemma csum_shift n s (f : nat -> C) :
    0 < n -> (forall i, f (i + n) = f i) -> csum n (fun i => f (s + i)) = csum n f.
  Proof.
    intros Hn Hf. induction s; auto.
    rewrite <- IHs. clear IHs.
    destruct n as [|n]; [lia|].
    transitivity (cadd (csum n (fun i => f (S s + i))) (f (s + S n))).
    - cbn [csum]. f_equal. f_equal. lia.
    - rewrite Hf. rewrite (csum_ext _ _ (fun i => f (s + (1 + i)))) by (intros; f_equal; lia).
      pose proof (csum_app L 1 n (fun i => f (s + i))) as E. cbn [csum Nat.add] in *.
      replace (s + 0) with s in E by lia.
      transitivity (cadd (cadd c0 (f s)) (csum n (fun i => f (s + S i)))); [ring|].
      rewrite <- E. reflexivity.
  Qed.

  Lemma dft_circ k (x y : list C) r : length x = 2 ^ k -> length y = 2 ^ k ->
    dft (2 ^ k) (tab (2 ^ k) (circ_conv (2 ^ k) x y)) r
    = cmul (dft (2 ^ k) x r) (dft (2 ^ k) y r).
  Proof.
    intros Hx Hy. set (n := 2 ^ k) in *. assert (Hn : 0 < n) by apply pow2_pos.
    unfold dft.
    rewrite (csum_ext n _ (fun t => csum n (fun j =>
       cmul (cmul (nth j x c0) (nth ((t + n - j) mod n) y c0)) (cpow (cis_neg n) (t * r))))).
    2: { intros t Ht. rewrite tab_nth by auto. unfold circ_conv. now rewrite (csum_mul_r L). }
    rewrite (csum_swap L). rewrite <- (csum_mul_r L). apply csum_ext. intros j Hj.
    set (g := fun i => cmul (nth (i mod n) y c0) (cpow (cis_neg n) (i * r))).
    assert (Hper : forall i, g (i + n) = g i).
    { intros i. unfold g.
      assert ((i + n) mod n = i mod n) as ->.
      { replace (i + n) with (i + 1 * n) by lia. now rewrite Nat.mod_add by lia. }
      f_equal. replace ((i + n) * r) with (n * r + i * r) by lia.
      rewrite (cpow_add L), <- (cpow_pow L _ n r). unfold n. rewrite (cis_neg_pow_full L), (cpow_c1 L). ring. }
    transitivity (cmul (cmul (nth j x c0) (cpow (cis_neg n) (j * r)))
                       (csum n (fun t => g (n - j + t)))).
    - rewrite <- (csum_mul_l L). apply csum_ext. intros t Ht. unfold g.
      replace (t + n - j) with (n - j + t) by lia.
      transitivity (cmul (cmul (nth j x c0) (nth ((n - j + t) mod n) y c0))
                         (cpow (cis_neg n) (j * r + (n - j + t) * r))).
      + f_equal. replace (j * r + (n - j + t) * r) with (n * r + t * r) by nia.
        rewrite (cpow_add L), <- (cpow_pow L _ n r). unfold n.
        rewrite (cis_neg_pow_full L), (cpow_c1 L). ring.
      + rewrite (cpow_add L). ring.
    - rewrite csum_shift by auto. f_equal. apply csum_ext. intros i Hi. unfold g.
      now rewrite Nat.mod_small.
  Qed.

  Theorem dif_circ k (x y : list C) : length x = 2 ^ k -> length y = 2 ^ k ->
    dif k (tab (2 ^ k) (circ_conv (2 ^ k) x y)) = zipw cmul (dif k x) (dif k y).
  Proof.
    intros Hx Hy. apply dif_eq.
    - apply tab_length.
    - rewrite zipw_length, !dif_length; auto; lia.
    - intros r Hr. rewrite dft_circ by auto.
      rewrite zipw_nth with (d1 := c0) (d2 := c0) by (rewrite dif_length; auto).
      now rewrite !dif_dft.
  Qed.

  Lemma dif_sum k m (z : nat -> list C) :
    (forall i, i < m -> length (z i) = 2 ^ k) ->
    dif k (tab (2 ^ k) (fun t => csum m (fun i => nth t (z i) c0)))
    = tab (2 ^ k) (fun p => csum m (fun i => nth p (dif k (z i)) c0)).
  Proof.
    intros Hz. apply dif_eq; try apply tab_length. intros r Hr. rewrite tab_nth by auto.
    unfold dft.
    rewrite (csum_ext (2 ^ k) _ (fun j => csum m (fun i =>
               cmul (nth j (z i) c0) (cpow (cis_neg (2 ^ k)) (j * bitrev k r))))).
    - rewrite csum_swap by auto. apply csum_ext. intros i Hi. rewrite dif_dft by auto. reflexivity.
    - intros j Hj. rewrite tab_nth by auto. now rewrite csum_mul_r.
  Qed.
End FFTProof.

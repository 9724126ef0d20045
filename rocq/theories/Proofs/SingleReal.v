(** * The radix-2 transform, used for real signals, meets the accuracy contract *)
From Coq Require Import Reals Lra Lia Psatz ZArith.
From Flocq Require Import Core.
From Verif.Model Require Import Base Arith ArithReal ArithSingle Juce.
From Verif.Spec Require Import Transform Signal Precision.
From Verif.Proofs Require Import Lists ComplexAlg Butterfly FFTProof RealFFTProof Norms SingleProof SingleFFT SingleTD SingleUPC.
Open Scope R_scope.

Lemma rsum_half k f : (0 < k)%nat -> (forall b, 0 <= f b) ->
  rsum (2 ^ k) (fun b => if (b <=? 2 ^ (k - 1))%nat then f b else f (2 ^ k - b)%nat) <= 2 * rsum (2 ^ (k - 1) + 1) f.
Proof.
  intros Hk Hf. set (h := (2 ^ (k - 1))%nat).
  assert (E : (2 ^ k = (h + 1) + (h - 1))%nat).
  { replace k with (S (k - 1)) at 1 by lia. cbn [Nat.pow]. fold h. pose proof (pow2_pos (k - 1)). fold h in H. lia. }
  rewrite E, rsum_app.
  replace (2 * rsum (h + 1) f) with (rsum (h + 1) f + rsum (h + 1) f) by ring.
  apply Rplus_le_compat.
  - right. apply rsum_ext. intros b Hb. destruct (Nat.leb_spec b h); [reflexivity|lia].
  - rewrite (rsum_ext _ _ (fun i => f (h - 1 - i)%nat)).
    2:{ intros i Hi. destruct (Nat.leb_spec (h + 1 + i) h); [lia|]. f_equal. lia. }
    assert (G : forall q, (q <= h)%nat -> rsum q (fun i => f (h - 1 - i)%nat) <= rsum h f).
    { assert (Rv : forall q g, rsum q (fun i => g (q - 1 - i)%nat) = rsum q g).
      { intros q. induction q as [|q IH]; intros g; [reflexivity|].
        etransitivity; [exact (rsum_app 1 q _)|]. cbn [rsum Nat.add].
        rewrite <- (IH g). replace (S q - 1 - 0)%nat with q by lia. rewrite Rplus_0_l, Rplus_comm. f_equal.
        apply rsum_ext. intros i Hi. f_equal. lia. }
      intros q Hq. rewrite <- (Rv h f).
      assert (Eq : rsum h (fun i => f (h - 1 - i)%nat) = rsum (q + (h - q)) (fun i => f (h - 1 - i)%nat)) by (f_equal; lia).
      rewrite Eq, rsum_app.
      pose proof (rsum_nonneg (h - q) (fun i => f (h - 1 - (q + i))%nat)) as Z. specialize (Z (fun i _ => Hf _)). lra. }
    specialize (G (h - 1)%nat ltac:(lia)).
    replace (h + 1)%nat with (S h) by lia. cbn [rsum]. specialize (Hf h). lra.
Qed.

Section Real.
  Variables (pow : R * R -> nat -> R * R) (k : nat) (tau : R).
  Notation F := (SingleWith pow).
  Hypothesis Hpow : pow_accurate pow (@cis F) (@cis_neg F) k tau.
  Hypothesis Htau : 0 <= tau <= / 4.
  Hypothesis Hk : (0 < k)%nat.
  Notation N := (2 ^ k)%nat.
  Notation H := (2 ^ (k - 1) + 1)%nat.

  Lemma EN : (2 ^ k = 2 * 2 ^ (k - 1))%nat.
  Proof. replace k with (S (k - 1)) at 1 by lia. reflexivity. Qed.

  Lemma fast_rfft_accurate :
    rfft_accurate (@rfft_fwd F (@fast_rfft F)) (@rfft_inv F (@fast_rfft F)) k (transform_error tau k).
  Proof.
    pose proof EN as EN. pose proof (pow2_pos (k - 1)) as Hh.
    assert (HN : 0 < INR N) by apply lt_0_INR, pow2_pos.
    pose proof floor_pos as FP.
    split.
    - intros k' d _ _. cbn [rfft_fwd fast_rfft]. rewrite (@flat_length F), tab_length. reflexivity.
    - intros k' d _ _. cbn [rfft_inv fast_rfft ref_rfft].
      set (Y := tab (2 ^ k') _).
      assert (HY : length (map fst (@idif F k' Y)) = (2 ^ k')%nat).
      { rewrite map_length. apply (@idif_length F). unfold Y. apply tab_length. }
      etransitivity; [apply app_length|]. rewrite repeat_length.
      etransitivity; [apply (f_equal (fun z => z + 2 ^ k')%nat), HY|]. lia.
    - intros d Hd. cbn [rfft_fwd fast_rfft].
      set (l := map (@creal Rarith) (firstn N d)).
      assert (Ll : length l = N) by (unfold l; rewrite map_length, firstn_length, Hd; lia).
      set (SL := energy N (fun i => nth i d 0) + sqrt (INR N) * floor50).
      assert (En : en N l = energy N (fun i => nth i d 0)).
      { unfold en, energy. f_equal. apply rsum_ext. intros i Hi. unfold l.
        assert (E : nth i (map (@creal Rarith) (firstn N d)) (0, 0) = (nth i d 0, 0)).
        { transitivity (@creal Rarith (nth i (firstn N d) 0)).
          - change (0, 0) with (@creal Rarith 0). apply map_nth.
          - rewrite nth_firstn'. destruct (Nat.ltb_spec i N); [reflexivity|lia]. }
        etransitivity; [exact (f_equal (fun z => modulus z * modulus z) E)|]. rewrite modulus_sq. cbn [fst snd]. ring. }
      assert (HS : en N l + pad (2 ^ (k - 1)) <= SL).
      { unfold SL. rewrite En. unfold pad. apply Rplus_le_compat_l. apply Rmult_le_compat_r; [lra|].
        apply sqrt_le_1_alt, le_INR. lia. }
      destruct (spectrum pow k tau Hpow Htau k (2 ^ (k - 1)) 1 EN (le_n k) Nat.lt_0_1 l SL Ll HS) as [_ SD].
      apply Rle_trans with (energy N (Df pow k l)).
      + eapply Rle_trans; [apply (energy_mono H N); lia|].
        rewrite (energy_ext N (Df pow k l) (fun p => cdist (nth p (@dif F k l) (0, 0)) (@dft Rarith N l (bitrev k p)))).
        2:{ intros p Hp. unfold Df. f_equal. exact (@dif_dft Rarith Rarith_laws k l p Ll Hp). }
        right. unfold energy. f_equal.
        match goal with |- rsum N ?f = _ => etransitivity; [symmetry; exact (rsum_bitrev k f)|] end. apply rsum_ext. intros p Hp.
        pose proof (bitrev_lt k p).
        assert (E : nth (bitrev k p) (@pairs Rarith (@flat F (tab N (fun b => nth (bitrev k b) (@dif F k (map (@creal F) (firstn N d))) (@c0 F))))) (0, 0)
          = nth p (@dif F k l) (0, 0)).
        { change (@pairs Rarith) with (@pairs F). rewrite (@pairs_flat F). etransitivity; [apply (@tab_nth (R * R)); auto|].
          rewrite bitrev_invol by auto. reflexivity. }
        exact (f_equal (fun z => cdist z (@dft Rarith N l (bitrev k p)) * cdist z (@dft Rarith N l (bitrev k p))) E).
      + eapply Rle_trans; [exact SD|]. unfold transform_error. change (tau + 12 * u24) with (gfac tau).
        change (sqrt (INR N)) with (rN k). right. ring.
    - intros d x E V Hd Hx HE HV t Ht. cbn [rfft_inv fast_rfft ref_rfft].
      set (pd := @pairs F d).
      set (v := tab N (fun p => @herm F N pd (bitrev k p))).
      set (l := map (@creal Rarith) x). assert (Ll : length l = N) by (unfold l; now rewrite map_length).
      set (X := @dft Rarith N l) in *.
      set (e := fun b => cdist (nth b pd (0, 0)) (X b)).
      set (q := fun b => modulus (X b)).
      set (W := fun b => q b + 4 * phi).
      set (ext := fun (f : nat -> R) b => if (b <=? 2 ^ (k - 1))%nat then f b else f (N - b)%nat).
      assert (Hh2 : (N / 2 = 2 ^ (k - 1))%nat) by (rewrite EN, Nat.mul_comm; apply Nat.div_mul; lia).
      assert (Pb : forall b, (b < N)%nat -> near (@herm F N pd b) (X b) (ext W b) (ext (fun b => W b + e b) b)).
      { intros b Hb. unfold herm, ext. rewrite Hh2. pose proof phi_pos.
        destruct (Nat.leb_spec b (2 ^ (k - 1))) as [Hle|Hgt].
        - unfold W, q, e. split; [lra|]. change (@c0 F) with (0, 0). lra.
        - assert (Es : X b = @conj Rarith (X (N - b)%nat)).
          { symmetry. apply (@dft_real_sym Rarith Rarith_laws k x b); auto. lia. }
          rewrite Es. unfold W, q, e. split.
          + assert (Ec : modulus (@conj Rarith (X (N - b)%nat)) = modulus (X (N - b)%nat)).
            { unfold modulus, conj. cbn. f_equal. ring. }
            rewrite Ec. lra.
          + assert (Ec : cdist (@conj F (nth (N - b) pd (@c0 F))) (@conj Rarith (X (N - b)%nat)) = cdist (nth (N - b) pd (0, 0)) (X (N - b)%nat)).
            { change (@c0 F) with (0, 0). set (z := nth (N - b) pd (0, 0)). unfold cdist, modulus, conj. cbn. f_equal. ring. }
            rewrite Ec. lra. }
      assert (Lv : length v = N) by apply tab_length.
      destruct (idif_near pow k tau Hpow Htau k (le_n k) v (@dif Rarith k l) (fun p => ext W (bitrev k p))
                 (fun p => ext (fun b => W b + e b) (bitrev k p)) Lv ltac:(now apply (@dif_length Rarith)))
        with (t := t) as [_ G]; auto.
      { intros p Hp. pose proof (bitrev_lt k p) as Hb. split.
        - assert (Ed : nth p (@dif Rarith k l) (0, 0) = X (bitrev k p)) by exact (@dif_dft Rarith Rarith_laws k l p Ll Hp).
          assert (Ev : nth p v (0, 0) = @herm F N pd (bitrev k p)) by exact (@tab_nth (R * R) N (fun p => @herm F N pd (bitrev k p)) p (0, 0) Hp).
          refine (eq_ind_r (fun z => near z _ _ _) _ Ev). refine (eq_ind_r (fun z => near _ z _ _) (Pb _ Hb) Ed).
        - unfold ext, W, q. destruct (_ <=? _)%nat; match goal with |- context [modulus ?z] => pose proof (modulus_nonneg z) end; lra. }
      rewrite (rsum_bitrev k (ext W)), (rsum_bitrev k (ext (fun b => W b + e b))) in G.
      assert (El : nth t (@idif Rarith k (@dif Rarith k l)) (0, 0) = (nth t x 0, 0)).
      { rewrite (@idif_dif Rarith Rarith_laws) by auto. unfold l. change (0, 0) with (@creal Rarith 0). rewrite map_nth. reflexivity. }
      rewrite El in G.
      assert (Eo : nth t (map fst (@idif F k v) ++ repeat (@s0 F) N) 0 = fst (nth t (@idif F k v) (0, 0))).
      { rewrite app_nth1 by (rewrite map_length, (@idif_length F); auto). change 0 with (@fst R R (0, 0)) at 1. apply map_nth. }
      apply Rle_trans with (cdist (nth t (@idif F k v) (0, 0)) (nth t x 0, 0)).
      { refine (eq_ind_r (fun z => Rabs (z - nth t x 0) <= _) _ Eo). exact (cdist_fst (nth t (@idif F k v) (0, 0)) (nth t x 0, 0)). }
      eapply Rle_trans; [exact G|].
      assert (c1 : 1 <= (1 + gfac tau) ^ k) by apply (c_ge1 tau Htau k).
      set (c := (1 + gfac tau) ^ k) in *. assert (Ec : transform_error tau k = c - 1) by reflexivity. rewrite Ec.
      assert (q0 : forall b, 0 <= W b).
      { intros b. unfold W, q. pose proof (modulus_nonneg (X b)). pose proof phi_pos. lra. }
      assert (e0 : forall b, 0 <= e b) by (intros; apply cdist_nonneg).
      assert (Sx : rsum N (ext (fun b => W b + e b)) = rsum N (ext W) + rsum N (ext e)).
      { rewrite <- rsum_plus. apply rsum_ext. intros b Hb. unfold ext. now destruct (_ <=? _)%nat. }
      pose proof (rsum_half k W Hk q0) as R1. pose proof (rsum_half k e Hk e0) as R2.
      change (rsum N (ext W) <= 2 * rsum H W) in R1. change (rsum N (ext e) <= 2 * rsum H e) in R2.
      assert (EW : rsum H W <= V + INR N * floor104).
      { unfold W. rewrite rsum_plus, rsum_const. apply Rplus_le_compat; [exact HV|].
        assert (HH : INR H <= INR N) by (apply le_INR; lia). pose proof (pos_INR H) as HH2. pose proof phi_pos. pose proof floor_sq.
        unfold floor104.
        assert (4 * phi <= floor50 * floor50 / 16).
        { assert (F2 : 64 * phi <= floor50 * floor50); [|lra]. rewrite floor_bpow. unfold phi.
          rewrite <- bpow_plus. change 64 with (bpow radix2 6). rewrite <- bpow_plus. apply bpow_le. lia. }
        apply Rmult_le_compat; lra. }
      assert (Ee : rsum H e <= E) by exact HE.
      rewrite Sx. set (w := rsum N (ext W)) in *. set (z := rsum N (ext e)) in *.
      replace (c * ((w + z) / INR N) - w / INR N) with (/ INR N * (c * z + (c - 1) * w)) by (field; lra).
      replace (2 / INR N * ((1 + (c - 1)) * E + (c - 1) * (V + INR N * floor104)))
        with (/ INR N * (c * (2 * E) + (c - 1) * (2 * (V + INR N * floor104)))) by (field; lra).
      apply Rmult_le_compat_l; [apply Rlt_le, Rinv_0_lt_compat; lra|].
      apply Rplus_le_compat; apply Rmult_le_compat_l; lra.
  Qed.
End Real.

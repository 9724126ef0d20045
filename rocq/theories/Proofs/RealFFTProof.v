(** * The real transform: reference implementation, transforms of real signals *)
From Verif.Model Require Import Base Arith Juce.
From Verif.Spec Require Import Transform RealFFT.
From Verif.Proofs Require Import Lists ComplexAlg Butterfly FFTProof.

Section Pairs.
  Context {A : arith}.
  Lemma flat_length (l : list (cplx A)) : length (flat l) = 2 * length l.
  Proof.
    induction l; auto. change (flat (a :: l)) with ([fst a; snd a] ++ flat l).
    rewrite app_length, IHl. simpl. lia.
  Qed.
  Lemma pairs_flat (l : list (cplx A)) : pairs (flat l) = l.
  Proof.
    induction l as [|[a b] l IH]; auto. change (flat ((a, b) :: l)) with ([a; b] ++ flat l).
    cbn [app pairs]. now rewrite IH.
  Qed.
  Lemma pairs_length n (l : list (sample A)) : length l = 2 * n -> length (pairs l) = n.
  Proof.
    revert l; induction n; intros l H.
    - destruct l; [reflexivity|discriminate].
    - destruct l as [|a [|b l]]; simpl in *; try lia. f_equal. apply IHn. lia.
  Qed.
  Lemma flat_pairs n (l : list (sample A)) : length l = 2 * n -> flat (pairs l) = l.
  Proof.
    revert l; induction n; intros l H.
    - destruct l; [reflexivity|discriminate].
    - destruct l as [|a [|b l]]; simpl in *; try lia.
      change (flat ((a, b) :: pairs l)) with ([a; b] ++ flat (pairs l)). rewrite IHn by lia. reflexivity.
  Qed.
  Lemma flat_zero n : flat (tab n (fun _ => @c0 A)) = tab (2 * n) (fun _ => s0).
  Proof.
    rewrite <- !repeat_tab. induction n; auto. replace (2 * S n) with (S (S (2 * n))) by lia.
    cbn [repeat]. change (flat (c0 :: repeat c0 n)) with ([@s0 A; s0] ++ flat (repeat c0 n)).
    now rewrite IHn.
  Qed.
End Pairs.

Section RealFFT.
  Context {A : arith} (L : arith_laws A).
  Let Sring := law_ring A L.
  Add Ring sring : Sring.
  Let Cring := cring L.
  Add Ring cring' : Cring.

  (** coefficient [b] of the transform of the first [n] values of a real signal *)
  Definition rd (n : nat) (w : nat -> sample A) (b : nat) : cplx A := dft n (map creal (tab n w)) b.

  Lemma rd_eq n w b :
    rd n w b = csum n (fun j => cmul (creal (w j)) (cpow (cis_neg n) (j * b))).
  Proof.
    unfold rd, dft. apply csum_ext. intros j Hj. rewrite tab_map, tab_nth by auto. reflexivity.
  Qed.
  Lemma rd_ext n w w' b : (forall j, j < n -> w j = w' j) -> rd n w b = rd n w' b.
  Proof. intros H. rewrite !rd_eq. apply csum_ext. intros. now rewrite H. Qed.
  Lemma rd_zero n b : rd n (fun _ => s0) b = c0.
  Proof.
    rewrite rd_eq. rewrite <- (csum_0 L n). apply csum_ext. intros. apply cplx_eq; unfold cmul, creal, c0; simpl; ring.
  Qed.
  Lemma rd_add n w w' b : rd n (fun j => sadd (w j) (w' j)) b = cadd (rd n w b) (rd n w' b).
  Proof. rewrite !rd_eq, <- (csum_add L). apply csum_ext. intros. rewrite (creal_add L). ring. Qed.
  Lemma rd_sum n m (w : nat -> nat -> sample A) b :
    rd n (fun j => ssum m (fun i => w i j)) b = csum m (fun i => rd n (w i) b).
  Proof.
    induction m; simpl; [apply rd_zero|]. rewrite rd_add, IHm. reflexivity.
  Qed.

  (** circular convolution of real signals *)
  Definition rcirc (n : nat) (w h : nat -> sample A) (t : nat) : sample A :=
    ssum n (fun j => smul (w j) (h ((t + n - j) mod n))).
  Lemma rd_circ k w h b :
    rd (2 ^ k) (rcirc (2 ^ k) w h) b = cmul (rd (2 ^ k) w b) (rd (2 ^ k) h b).
  Proof.
    pose proof (pow2_pos k). unfold rd.
    rewrite <- (dft_circ L) by (rewrite map_length; apply tab_length).
    f_equal. rewrite tab_map. apply tab_ext. intros t Ht. unfold rcirc, circ_conv.
    rewrite (creal_sum L). apply csum_ext. intros j Hj. rewrite (creal_mul L).
    rewrite !tab_map, !tab_nth; auto. apply Nat.mod_upper_bound. lia.
  Qed.

  (** ** A reference implementation *)
  (** Hermitian extension of the coefficients 0 .. n/2 *)
  Definition herm (n : nat) (X : list (cplx A)) (b : nat) : cplx A :=
    if b <=? n / 2 then nth b X c0 else conj (nth (n - b) X c0).
  Definition ref_rfft : rfft A := {|
    rfft_fwd := fun k d => flat (tab (2 ^ k) (dft (2 ^ k) (map creal (firstn (2 ^ k) d))));
    rfft_inv := fun k d =>
      map fst (idif k (tab (2 ^ k) (fun p => herm (2 ^ k) (pairs d) (bitrev k p))))
      ++ repeat s0 (2 ^ k)
  |}.

  Lemma dft_real_sym k (x : list (sample A)) b : length x = 2 ^ k -> b <= 2 ^ k ->
    conj (dft (2 ^ k) (map creal x) (2 ^ k - b)) = dft (2 ^ k) (map creal x) b.
  Proof.
    intros Hx Hb. unfold dft. rewrite (conj_sum L). apply csum_ext. intros j Hj.
    rewrite (conj_mul L), (conj_pow L), (conj_cis_neg L).
    rewrite nth_indep with (d' := creal s0) by (rewrite map_length; lia).
    rewrite map_nth, (conj_creal L). f_equal.
    pose proof (cis_pows L (2 ^ k) (j * (2 ^ k - b)) (pow2_pos k)) as H1.
    assert (H2 : cmul (cpow (cis_neg (2 ^ k)) (j * (2 ^ k - b))) (cpow (@cis_neg A (2 ^ k)) (j * b)) = c1).
    { rewrite <- (cpow_add L). replace (j * (2 ^ k - b) + j * b) with (2 ^ k * j) by nia.
      rewrite <- (cpow_pow L), (cis_neg_pow_full L). apply (cpow_c1 L). }
    set (u := cpow (cis (2 ^ k)) _) in *. set (v := cpow (cis_neg (2 ^ k)) (j * (2 ^ k - b))) in *.
    set (w := cpow (cis_neg (2 ^ k)) (j * b)) in *.
    transitivity (cmul u (cmul v w)); [rewrite H2; ring|].
    transitivity (cmul (cmul u v) w); [ring|]. rewrite H1. ring.
  Qed.

  Theorem ref_rfft_ok : rfft_ok ref_rfft.
  Proof.
    split; cbn [rfft_fwd rfft_inv ref_rfft].
    - intros. now rewrite flat_length, tab_length.
    - intros k d b Hk Hd Hb. rewrite pairs_flat. rewrite tab_nth; auto.
      destruct k; [lia|]. replace (S k - 1) with k in Hb by lia. pose proof (pow2_pos k). simpl. lia.
    - intros k d _ _. set (Y := tab (2 ^ k) _).
      assert (HY : length (map fst (idif k Y)) = 2 ^ k).
      { rewrite map_length. apply idif_length. unfold Y. apply tab_length. }
      rewrite app_length, HY, repeat_length. lia.
    - intros k d x Hk Hd Hx Hb.
      set (Y := tab (2 ^ k) _).
      assert (HY : length (map fst (idif k Y)) = 2 ^ k).
      { rewrite map_length. apply idif_length. unfold Y. apply tab_length. }
      rewrite firstn_app, HY, Nat.sub_diag, firstn_O, app_nil_r, firstn_all2 by lia.
      assert (E : Y = dif k (map creal x)).
      { unfold Y. symmetry. apply (dif_eq L); [now rewrite map_length|apply tab_length|].
        intros r Hr. rewrite tab_nth by auto. pose proof (bitrev_lt k r) as Hbr.
        assert (Hh : 2 ^ k / 2 = 2 ^ (k - 1)).
        { destruct k; [lia|]. replace (S k - 1) with k by lia. rewrite Nat.pow_succ_r', Nat.mul_comm.
          apply Nat.div_mul. lia. }
        assert (H2 : 2 * 2 ^ (k - 1) = 2 ^ k).
        { destruct k; [lia|]. replace (S k - 1) with k by lia. reflexivity. }
        unfold herm. rewrite Hh. destruct (Nat.leb_spec (bitrev k r) (2 ^ (k - 1))).
        - now apply Hb.
        - rewrite Hb by lia. apply dft_real_sym; lia. }
      rewrite E, (idif_dif L) by (now rewrite map_length).
      rewrite map_map. simpl. apply map_id.
  Qed.

  (** the same, computed by the fast algorithm (for running the model) *)
  Definition fast_rfft : rfft A := {|
    rfft_fwd := fun k d =>
      let y := dif k (map creal (firstn (2 ^ k) d)) in flat (tab (2 ^ k) (fun b => nth (bitrev k b) y c0));
    rfft_inv := rfft_inv ref_rfft
  |}.
  Theorem fast_rfft_ok : rfft_ok fast_rfft.
  Proof.
    destruct ref_rfft_ok as [H1 H2 H3 H4]. split; auto; cbn [rfft_fwd fast_rfft].
    - intros. now rewrite flat_length, tab_length.
    - intros k d b Hk Hd Hb.
      assert (Hb2 : b < 2 ^ k).
      { destruct k; [lia|]. replace (S k - 1) with k in Hb by lia. pose proof (pow2_pos k). simpl. lia. }
      rewrite pairs_flat, tab_nth by auto.
      rewrite (dif_dft L); [now rewrite bitrev_invol| |apply bitrev_lt].
      rewrite map_length, firstn_length. lia.
  Qed.
End RealFFT.

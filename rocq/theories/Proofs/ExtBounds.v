(** * Nothing the convolvers compute is above 2^127 *)
From Coq Require Import Reals Lra.
From Verif.Model Require Import Base Arith ArithReal ArithSingle Juce Partitioning PartitionSchemes UniformPartitionedConvolver TimeDistributedUPC
     TimeDistributedUPCMulti TimeDistributedNUPC Convolver.
From Verif.Spec Require Import Transform Buffers Signal Layout Precision.
From Verif.Proofs Require Import Lists ComplexAlg Butterfly FFTProof Blocks Norms SingleProof SingleFFT RealFFTProof Streams TDUPCProof TDUPCStream
     UPCFloat NUPCFloat NUPCMake ConvolverFloat Ext.
Open Scope R_scope.

Section FFT.
  Variable pow : R * R -> nat -> R * R.
  Notation F := (SingleWith pow).
  Notation E := (Ext pow).
  Variables (k0 : nat) (tau : R).
  Hypothesis (Htau : 0 <= tau <= / 4) (Hpow : pow_accurate pow (@cis F) (@cis_neg F) k0 tau).
  Notation cb := (cb pow).
  Notation rb := (rb pow).

  Lemma root_neg_b j e : (j < k0)%nat -> (e < 2 ^ j)%nat -> cb (5 / 4) (spow (@cis_neg E (2 * 2 ^ j)) e).
  Proof.
    intros Hj He. destruct (Hpow j e Hj He) as [H _].
    pose proof (cdist_bound (pow (@cis_neg F (2 * 2 ^ j)) e) (@cpow Rarith (@cis_neg Rarith (2 * 2 ^ j)) e)) as B.
    rewrite unit_root_neg in B by (pose proof (pow2_pos j); lia).
    exists (fst (pow (@cis_neg F (2 * 2 ^ j)) e)), (snd (pow (@cis_neg F (2 * 2 ^ j)) e)). split; [reflexivity|].
    rewrite <- surjective_pairing. lra.
  Qed.
  Lemma root_b j e : (j < k0)%nat -> (e < 2 ^ j)%nat -> cb (5 / 4) (spow (@cis E (2 * 2 ^ j)) e).
  Proof.
    intros Hj He. destruct (Hpow j e Hj He) as [_ H].
    pose proof (cdist_bound (pow (@cis F (2 * 2 ^ j)) e) (@cpow Rarith (@cis Rarith (2 * 2 ^ j)) e)) as B.
    rewrite unit_root in B by (pose proof (pow2_pos j); lia).
    exists (fst (pow (@cis F (2 * 2 ^ j)) e)), (snd (pow (@cis F (2 * 2 ^ j)) e)). split; [reflexivity|].
    rewrite <- surjective_pairing. lra.
  Qed.

  Definition lb (M : R) (l : list (cplx E)) : Prop := forall i, cb M (nth i l c0).
  Lemma lb_tab M n f : 0 <= M -> (forall i, (i < n)%nat -> cb M (f i)) -> lb M (tab n f).
  Proof.
    intros HM H i. destruct (Nat.lt_ge_cases i n) as [Hi|Hi]; [rewrite tab_nth by auto; auto|].
    rewrite nth_overflow by (now rewrite tab_length). now apply cb_0.
  Qed.
  Lemma lb_firstn M n l : 0 <= M -> lb M l -> lb M (firstn n l).
  Proof.
    intros HM H i. destruct (Nat.lt_ge_cases i n) as [Hi|Hi].
    - specialize (H i). rewrite <- (firstn_skipn n l) in H. destruct (Nat.lt_ge_cases i (length (firstn n l))) as [Hl|Hl].
      + now rewrite app_nth1 in H by auto.
      + rewrite nth_overflow by auto. now apply cb_0.
    - rewrite nth_overflow; [now apply cb_0|]. rewrite firstn_length. lia.
  Qed.
  Lemma lb_skipn M n l : lb M l -> lb M (skipn n l).
  Proof. intros H i. rewrite nth_skipn'. apply H. Qed.
  Lemma lb_app M l l' : lb M l -> lb M l' -> lb M (l ++ l').
  Proof. intros H H' i. destruct (Nat.lt_ge_cases i (length l)) as [Hi|Hi]; [rewrite app_nth1 by auto; apply H|rewrite app_nth2 by auto; apply H']. Qed.
  Lemma lb_weaken M M' l : lb M l -> M <= M' -> lb M' l.
  Proof. intros H HM i. eapply cb_weaken; eauto. Qed.

  Lemma dif_b : forall k, (k <= k0)%nat -> forall M l, 1 <= M -> (13 / 5) ^ k * M <= 2 ^ 120 -> lb M l -> lb ((13 / 5) ^ k * M) (dif k l).
  Proof.
    induction k as [|k IH]; intros Hk M l HM HB H; cbn [dif].
    - cbn. eapply lb_weaken; [exact H|lra].
    - assert (P : 1 <= (13 / 5) ^ k) by (apply pow_R1_Rle; lra). cbn [Rpow_def.pow] in *.
      assert (HB' : (13 / 5) ^ k * (13 / 5 * M) <= 2 ^ 120) by lra.
      assert (HMb : 13 / 5 * M <= 2 ^ 120) by nra.
      replace (13 / 5 * (13 / 5) ^ k * M) with ((13 / 5) ^ k * (13 / 5 * M)) by ring.
      apply lb_app; apply IH; try lra; try lia.
      + unfold lo. apply lb_tab; [lra|]. intros i Hi. eapply cb_weaken; [apply cb_add; [apply H|apply H|lra|]|]; unfold u24, big; lra.
      + unfold hi. apply lb_tab; [lra|]. intros i Hi.
        assert (Hs : cb ((1 + 2 * u24) * (M + M)) (csub (nth i l c0) (nth (i + 2 ^ k) l c0))).
        { apply cb_sub; [apply H|apply H|lra|unfold u24, big; lra]. }
        eapply cb_weaken; [apply cb_mul; [exact Hs|apply root_neg_b; auto|..]|]; unfold u24, big; lra.
  Qed.
  Lemma idif_b : forall k, (k <= k0)%nat -> forall M l, 2 <= M -> (6 / 5) ^ k * M <= 2 ^ 120 -> lb M l -> lb ((6 / 5) ^ k * M) (idif k l).
  Proof.
    induction k as [|k IH]; intros Hk M l HM HB H; cbn [idif].
    - cbn. eapply lb_weaken; [exact H|lra].
    - assert (P : 1 <= (6 / 5) ^ k) by (apply pow_R1_Rle; lra). cbn [Rpow_def.pow] in *.
      set (q := (6 / 5) ^ k * M) in *. assert (Hq : 2 <= q) by (unfold q; nra). assert (HB' : 6 / 5 * q <= 2 ^ 120) by (unfold q; lra).
      replace (6 / 5 * (6 / 5) ^ k * M) with (6 / 5 * q) by (unfold q; ring).
      pose proof (IH ltac:(lia) M _ HM ltac:(unfold q in *; lra) (lb_firstn M (2 ^ k) l ltac:(lra) H)) as H1.
      pose proof (IH ltac:(lia) M _ HM ltac:(unfold q in *; lra) (lb_skipn M (2 ^ k) l H)) as H2. fold q in H1, H2.
      unfold merge.
      assert (Hm : forall i, (i < 2 ^ k)%nat ->
        cb ((1 + 5 * u24) * (q * (5 / 4))) (cmul (nth i (idif k (skipn (2 ^ k) l)) c0) (spow (@cis E (2 * 2 ^ k)) i))).
      { intros i Hi. apply cb_mul; [apply H2|apply root_b; auto|..]; unfold u24, big; lra. }
      apply lb_app; (apply lb_tab; [lra|]); intros i Hi.
      + eapply cb_weaken; [apply cb_half; [apply cb_add; [apply H1|apply Hm; exact Hi|..]|..]|]; unfold u24, big; lra.
      + eapply cb_weaken; [apply cb_half; [apply cb_sub; [apply H1|apply Hm; exact Hi|..]|..]|]; unfold u24, big; lra.
  Qed.

  (** ** the time-distributed convolver *)
  Lemma ago_b M (x : nat -> sample E) e d : 0 <= M -> (forall i, rb M (x i)) -> rb M (ago x e d).
  Proof. intros HM H. unfold ago. destruct (d <=? e)%nat; auto. now apply rb_0. Qed.
  Lemma Hb_b M k P h r : 0 <= M -> (forall j, rb M (h j)) -> lb M (@Hb E k P h r).
  Proof.
    intros HM H. apply lb_tab; auto. intros q Hq. apply cb_creal. unfold hw. destruct (q <? P)%nat; auto. now apply rb_0.
  Qed.
  Lemma pow_cap24 k : (k <= 24)%nat -> (13 / 5) ^ k <= 2 ^ 34 /\ (4 + / 16) ^ k <= 2 ^ 49.
  Proof.
    intros H. split; (eapply Rle_trans; [apply (Rle_pow _ k 24); [lra|exact H]|lra]).
  Qed.
  Definition Xmax : R := 2 ^ 16.
  Definition TDmax : R := 2 ^ 111.
  Lemma tdy_b b s K h x p0 t : (S (s + b) <= k0)%nat -> (S (s + b) <= 24)%nat -> (0 < K <= 2 ^ 20)%nat -> INR K * 2 ^ S (s + b) <= 2 ^ 26 ->
    (forall j, rb Xmax (h j)) -> (forall i, rb Xmax (x i)) -> rb TDmax (@tdy E b s K h p0 x t).
  Proof.
    intros Hk Hk24 HK HKk Hh Hx. unfold tdy. set (k := S (s + b)) in *. set (P := (2 ^ (s + b))%nat).
    assert (X0 : 0 <= Xmax) by (unfold Xmax; lra).
    assert (Hx' : forall i, rb Xmax (ago x i (p0 * 2 ^ b))) by (intros; now apply ago_b). set (x' := fun i => ago x i (p0 * 2 ^ b)) in *.
    destruct (pow_cap24 k Hk24) as [C1 C2]. set (D := (13 / 5) ^ k) in *. assert (D1 : 1 <= D) by (apply pow_R1_Rle; lra).
    assert (I1 : 1 <= INR K) by (change 1 with (INR 1); apply le_INR; lia).
    assert (DD : INR K * (D * D) * (6 / 5) ^ k <= 2 ^ 75).
    { unfold D. rewrite <- !Rpow_mult_distr.
      replace (INR K * (13 / 5 * (13 / 5)) ^ k * (6 / 5) ^ k) with (INR K * 2 ^ k * (1014 / 250) ^ k).
      2: { rewrite !Rmult_assoc. rewrite <- !Rpow_mult_distr. do 2 f_equal. lra. }
      replace (2 ^ 75) with (2 ^ 26 * 2 ^ 49) by lra. apply Rmult_le_compat; auto.
      - apply Rmult_le_pos; [lra|]. apply pow_le. lra.
      - apply pow_le. lra.
      - eapply Rle_trans; [|exact C2]. apply pow_incr. lra. }
    assert (Q1 : 1 <= (6 / 5) ^ k) by (apply pow_R1_Rle; lra). set (Q := (6 / 5) ^ k) in *.
    set (G := (1 + 5 * u24) * (D * Xmax * (D * Xmax))).
    assert (GK : INR K * G * Q <= 2 ^ 108).
    { replace (INR K * G * Q) with ((1 + 5 * u24) * (Xmax * Xmax) * (INR K * (D * D) * Q)) by (unfold G; ring).
      eapply Rle_trans; [apply Rmult_le_compat_l; [unfold u24, Xmax; lra|exact DD]|]. unfold u24, Xmax. lra. }
    assert (DX : 1 <= D * Xmax) by (unfold Xmax; nra).
    assert (G1 : 1 <= G) by (unfold G, u24 in *; nra).
    assert (GKb : INR K * G <= 2 ^ 108).
    { eapply Rle_trans; [|exact GK]. rewrite <- (Rmult_1_r (INR K * G)) at 1. apply Rmult_le_compat_l; [nra|lra]. }
    assert (Gb : G <= 2 ^ 108) by (eapply Rle_trans; [|exact GKb]; nra).
    assert (HZ : forall m i j, rb (2 ^ 109) (Zv k P K h x' m i j)).
    { intros m i j. unfold Zv. apply cb_fst.
      eapply cb_weaken.
      - apply idif_b with (M := 2 * INR K * G); [exact Hk|nra|fold Q; lra|]. apply lb_tab; [nra|]. intros q Hq. unfold Gv.
        apply cb_sum; [exact G1|apply HK|unfold big; lra|]. intros r Hr.
        apply cb_mul; [apply dif_b; auto|apply dif_b; auto|..].
        + unfold Xmax; lra.
        + fold D. unfold Xmax. lra.
        + apply lb_tab; auto. intros e He. apply cb_creal. unfold xw. destruct (e <? P)%nat; [now apply ago_b|now apply rb_0].
        + unfold Xmax; lra.
        + fold D. unfold Xmax. lra.
        + now apply Hb_b.
        + fold D. nra.
        + fold D. lra.
        + fold D. change ((1 + 5 * u24) * (D * Xmax * (D * Xmax))) with G. unfold big. lra.
      - fold Q. lra. }
    eapply rb_weaken; [apply rb_add; [apply HZ|apply HZ|..]|]; unfold u24, big, TDmax; lra.
  Qed.
End FFT.

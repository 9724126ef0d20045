(** * A convolver with bounded responses and inputs never computes a number above 2^127 *)
From Coq Require Import Reals Lra.
From Verif.Model Require Import Base Arith ArithReal ArithSingle Juce Partitioning PartitionSchemes UniformPartitionedConvolver TimeDistributedUPC
     TimeDistributedUPCMulti TimeDistributedNUPC Convolver.
From Verif.Spec Require Import Transform Buffers Signal Layout Precision Memory Overflow.
From Verif.Proofs Require Import Lists ComplexAlg Butterfly FFTProof Blocks Norms FloatProof SingleProof SingleFFT RealFFTProof Streams StreamsQ TDUPCProof
     TDUPCStream UPCProof UPCFloat NUPCProof NUPCFloat NUPCMake ConvolverProof ConvolverFloat Ext ExtBounds ExtOut.
Open Scope R_scope.

Lemma block_size_range M i e : conv_block_size M i = Ok (Z.of_nat (2 ^ e)) -> (5 <= e <= 11)%nat.
Proof.
  unfold conv_block_size. destruct (powerOfTwoEqualOrBelow _) as [p| |]; cbn [bind]; intros H; try discriminate. injection H as H.
  assert (H1 : (2 ^ 5 <= 2 ^ e)%nat) by (apply Nat2Z.inj_le; rewrite <- H; cbn; lia).
  assert (H2 : (2 ^ e <= 2 ^ 11)%nat) by (apply Nat2Z.inj_le; rewrite <- H; cbn; lia).
  split; apply (Nat.pow_le_mono_r_iff 2); auto; lia.
Qed.

Section Run.
  Variable pow : R * R -> nat -> R * R.
  Notation F := (SingleWith pow).
  Notation E := (Ext pow).
  Variable Rs : rfft F.
  Hypothesis HRs : rfft_sized Rs.
  Hypothesis HRb : rfft_bounded (@rfft_fwd F Rs) (@rfft_inv F Rs).
  Notation rb := (rb pow).
  Variables (kt : nat) (tau : R).
  Hypothesis (Htau : 0 <= tau <= / 4) (Hpow : pow_accurate pow (@cis F) (@cis_neg F) kt tau).
  Notation ER := (ext_rfft pow Rs).

  Lemma ext_run w m (ir : audio E) M spec e l : let n := length ir in
    conv_block_size (Z.of_nat M) (cs_internal spec) = Ok (Z.of_nat (2 ^ e)) ->
    (0 < w)%nat -> (0 < n <= 1024)%nat -> block_of n m ir -> (0 < m)%nat -> (Z.of_nat m <= 2 ^ 24)%Z ->
    (forall c j, rb Xmax (nth j (nth c ir []) s0)) ->
    GetPartitionScheme kGarciaResults (Z.of_nat (2 ^ e)) (Z.of_nat m) = Ok l ->
    (forall q, In q (tl l) -> 2 * (Z.to_nat (pl_size q) * 2 ^ e) <= 2 ^ kt)%nat ->
    (n <= length (cs_in spec))%nat -> (forall i, In i (firstn n (cs_in spec)) -> (i < w)%nat) ->
    (n <= length (cs_out spec))%nat -> (forall o, In o (firstn n (cs_out spec)) -> (o < w)%nat) ->
    exists c, conv_make ER ir M spec = Ok c /\
      forall sessions, (forall blocks, In blocks sessions -> blocks_of w blocks) ->
      exists s' outs, feed_sessions (conv_process ER) conv_reset c sessions = Ok (s', outs) /\
        Forall2 (fun ins outs : list (audio E) => length outs = length ins /\
          (forall i, (i < length ins)%nat -> exists k, block_of w k (nth i ins []) /\ block_of w k (nth i outs [])) /\
          forall o, (o < w)%nat -> length (channel o outs) = length (channel o ins) /\
            ((forall c i, rb Xmax (chan_fun ins c i)) -> forall t, (t < length (channel o ins))%nat ->
               rb (INR n * (21 * 2 ^ 111)) (nth t (channel o outs) s0))) sessions outs.
  Proof.
    intros n Eb Hw Hn Hsh Hm H24 Hir El Hkt Hi Hri Ho Hro. pose proof (block_size_range _ _ _ Eb) as He.
    destruct Hn as [Hn Hn']. pose proof (pow2_pos e) as HB. set (B := (2 ^ e)%nat) in *.
    assert (HB32 : (32 <= B)%nat) by (change 32%nat with (2 ^ 5)%nat; apply Nat.pow_le_mono_r; lia).
    assert (Ek : next_pow2 (B * 2) = (2 ^ S e)%nat).
    { unfold next_pow2. f_equal. apply Nat.log2_up_unique; [lia|]. cbn [Nat.pred]. fold B. cbn [Nat.pow]. fold B. lia. }
    destruct (@make_any E (ext_zero pow) ER (ext_fwd_len pow Rs HRs) n m ir Hn Hn Hsh Hm H24 B (S e) l HB Ek El)
      as (a & l' & El' & Hnum & Hlo & b & nu & Ku & ds & Enu & Hk & HF & HKu & (HKl & HKo) & Hp & HBb & Hst).
    pose proof (@pieces_sound E n m ir Hn Hn Hm B l' _ ds Hp) as Hds.
    set (off := Nat.min (Z.to_nat (pl_num a) * B) m) in *.
    set (Ist := @state E ER n ir B b (S e) Ku off ds). set (O := @output E ER ir B b (S e) Ku off ds).
    set (c := {| c_routing := @zeros E n B; c_nupc := nu; c_spec := spec; c_channels := n; c_block := B;
                 c_num_samples := @num_samples E ir |} : convolver E).
    exists c. split.
    { unfold conv_make. eapply bind_eq; [exact Eb|]. cbv beta. rewrite Nat2Z.id. eapply bind_eq; [exact Enu|]. reflexivity. }
    intros sessions Hses.
    destruct (@sessions_genQ E _ (@conv_process E ER) (@conv_reset E) w (fun _ => True)
                (@cst E n B spec Ist) (@cout E n spec O))
      with (sessions := sessions) (s := c) as (s' & outs & Ef & _ & HFo).
    - intros x T s k0 _ HT. refine (@conv_process_ok E ER w n B spec Hn Hw HB Hi Ho Hri Hro Ist O _ x T s k0 HT).
      intros x0 T0 nu0 len H0.
      exact (@state_process E (ext_zero pow) ER (ext_fwd_len pow Rs HRs) (ext_inv_len pow Rs HRs) n ir Hn B b (S e) Ku off ds HB HBb Hk HF (proj1 HKu) Hds x0 T0 nu0 len H0).
    - intros x T s x' HT. eapply (@conv_reset_ok E n B spec Ist); eauto.
      intros x0 T0 nu0 x1 H0.
      exact (@state_reset E (ext_zero pow) ER n ir Hn B b (S e) Ku off ds HB Hk HF (proj1 HKu) Hds x0 T0 nu0 x1 H0).
    - intros x. unfold c. repeat split; auto. cbn [c_routing]. rewrite zeros_mk. eauto. apply Hst.
    - intros blocks Hb bl Hbl. destruct (Hses blocks Hb bl Hbl) as (k0 & Hk0). eauto.
    - exists s', outs. split; [exact Ef|]. eapply Forall2_mono; [|exact HFo].
      intros ins os (H1 & H2 & H3). split; [exact H1|]. split.
      { intros i Hi'. destruct (H2 i Hi') as (k0 & _ & A1 & A2). exists k0. split; assumption. }
      intros o Hoo. destruct (H3 o Hoo) as [H4 H5]. split; [exact H4|]. intros Hx t Ht.
      destruct (H5 t Ht) as (f & Hf & ->). eapply rb_weaken; [apply rmix_b; [exact Hn'|]|].
      + intros ch Hc. eapply (nout_b pow Rs HRb kt tau Htau Hpow m ir Hm H24 Hir B b (S e) Ku off ds HB32 HBb); [lia|lia|lia| |exact Hp| |exact (Hf ch Hc)].
        * intros c0 i. apply Hx.
        * intros q Hq. apply Hkt. rewrite El'. exact Hq.
      + assert (INR n <= 1024) by (replace 1024 with (INR 1024) by (rewrite INR_IZR_INZ; reflexivity); now apply le_INR).
        pose proof (pos_INR n). unfold Nmax. lra.
  Qed.
End Run.

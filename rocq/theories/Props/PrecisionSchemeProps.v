(** * C60, C61: accuracy of the non-uniform convolver and of the convolver with routing in single precision *)
From Coq Require Import Reals Lra Lia.
From Verif.Model Require Import Base Arith ArithReal ArithSingle Juce Float32 Partitioning PartitionSchemes
     UniformPartitionedConvolver TimeDistributedNUPC Convolver.
From Verif.Spec Require Import Transform Buffers Signal Routing Precision PrecisionScheme.
From Verif.Proofs Require Import Lists ComplexAlg Butterfly FFTProof Blocks Streams StreamsQ RealFFTProof UPCProof UPCFloat NUPCMake
     ConvolverProof ConvolverFloat Norms SingleProof SingleFFT SingleTD SingleStreams SingleRoots SingleUPC SingleReal SingleNUPC.
From Verif.Spec Require Import PrecisionScheme.
From Verif.Props Require Import UPCProps PartitionProps PrecisionProps.
Open Scope R_scope.

Section Parts.
  Variables (pow : R * R -> nat -> R * R).
  Notation F := (SingleWith pow).
  Variables (Rf : rfft F) (k : nat) (delta : R) (kt : nat) (tau : R) (n B m : nat) (ir : audio Rarith) (l : list layout).
  Hypothesis (HB : (0 < B)%nat) (Hk2 : (2 ^ (k - 1) < 2 * B <= 2 ^ k)%nat).
  Hypothesis HR : rfft_accurate (@rfft_fwd F Rf) (@rfft_inv F Rf) k delta.
  Hypothesis Hdelta : 0 <= delta.
  Hypothesis Hpow : pow_accurate pow (@cis F) (@cis_neg F) kt tau.
  Hypothesis Htau : 0 <= tau <= / 4.
  Hypothesis (Hn : (0 < n)%nat) (Hl : (0 < length ir)%nat) (Hsh : block_of (length ir) m ir) (Hm : (0 < m)%nat).
  Hypothesis (H24 : (Z.of_nat m <= 2 ^ 24)%Z) (Hkt : forall q, In q (tl l) -> (2 * (Z.to_nat (pl_size q) * B) <= 2 ^ kt)%nat).
  Hypothesis El : GetPartitionScheme kGarciaResults (Z.of_nat B) (Z.of_nat m) = Ok l.

  Lemma nupc_single : exists nu (Ist : (nat -> nat -> R) -> nat -> nupc F -> Prop) (O : (nat -> nat -> R) -> nat -> nat -> R -> Prop),
    @nupc_make F Rf ir n B = Ok nu /\ (forall x, Ist x 0%nat nu) /\
    (forall x T nu len, Ist x T nu -> exists nu' y,
       @nupc_process F Rf nu (mk n len (fun c i => x c (T + i)%nat)) = Ok (nu', mk n len y) /\
       (forall c i, (c < n)%nat -> (i < len)%nat -> O x c (T + i)%nat (y c i)) /\ Ist x (T + len)%nat nu') /\
    (forall x T nu x', Ist x T nu -> Ist x' 0%nat (nupc_reset nu)) /\
    forall x c t v X, O x c t v -> (forall i, Rabs (x c i) + floor50 <= X) ->
      exists W S, phi <= W /\
        nearR v (@fir Rarith m (fun j => nth j (response ir c) 0) (x c) t) W S /\
        forall e, (1 + 2 * u24) ^ e * S - W <= scheme_error delta tau (2 ^ k) B e l (response ir c) X.
  Proof.
    pose proof (acc_fwd_length _ _ _ _ HR) as L1. pose proof (acc_inv_length _ _ _ _ HR) as L2.
    assert (Ek : next_pow2 (B * 2) = (2 ^ k)%nat).
    { unfold next_pow2. f_equal. apply Nat.log2_up_unique; [destruct k; [cbn in Hk2; lia|lia]|].
      replace (Nat.pred k) with (k - 1)%nat by lia. lia. }
    destruct (@make_any F (single_zero pow) Rf L1 n m ir Hn Hl Hsh Hm H24 B k l HB Ek El)
      as (a & l' & El' & Hnum & Hlo & b & nu & Ku & ds & Enu & Hk & HF & HKu & (_ & HKo) & Hp & HBb & Hst).
    rewrite El' in Hkt. cbn [tl] in Hkt.
    pose proof (@pieces_sound F n m ir Hn Hl Hm B l' _ ds Hp) as Hds.
    set (off := Nat.min (Z.to_nat (pl_num a) * B) m) in *.
    exists nu, (@state F Rf n ir B b k Ku off ds), (@output F Rf ir B b k Ku off ds).
    split; [exact Enu|]. split; [exact Hst|]. split; [|split].
    - intros x T s len HT.
      exact (@state_process F (single_zero pow) Rf L1 L2 n ir Hn B b k Ku off ds HB HBb Hk HF (proj1 HKu) Hds x T s len HT).
    - intros x T s x' HT.
      exact (@state_reset F (single_zero pow) Rf n ir Hn B b k Ku off ds HB Hk HF (proj1 HKu) Hds x T s x' HT).
    - intros x c t v X HO HX.
      assert (Hlen : (length (nth (c mod length ir) ir []) <= m)%nat).
      { destruct Hsh as [_ Hs]. rewrite Hs; auto. apply nth_In, Nat.mod_upper_bound. lia. }
      pose proof (out_near pow Rf k delta kt tau HR Hdelta Hpow Htau n m ir Hn Hl Hm c Hlen x X HX
        B b Ku a l' ds t v HB Hk HF Hnum HKu Hkt Hlo HKo Hp HBb HO) as G.
      do 2 eexists. split; [|split; [exact G|]].
      + pose proof (head_W_floor n m ir Hn Hl Hm c Hlen x X HX (2 ^ k) B (Z.to_nat (pl_num a)) (pow2_pos k) ltac:(lia)) as HW.
        pose proof (tails_nonneg tau Htau ir c x X HX B l' (Z.to_nat (pl_num a) * B)) as TN.
        pose proof floor_sq. pose proof phi_pos. unfold response. lra.
      + intros e. rewrite El'. unfold scheme_error. rewrite head_split, tails_split. unfold response.
        rewrite (pow_add _ (length _) e). right. ring.
  Qed.
End Parts.

(** C60.  The non-uniform convolver in [float]: [n] channels, blocks of [B] samples, [2^k] the size of the transforms
    for the first partitions, done by whatever [juce::dsp::FFT] computes, within [delta]; the other transforms are
    the library's own, with powers of roots of unity right within [tau]. *)
Theorem C60_scheme_accuracy : forall pow (Rf : rfft (SingleWith pow)) delta tau k kt n B m (ir : audio Rarith) l,
  (0 < B)%nat -> (2 ^ (k - 1) < 2 * B <= 2 ^ k)%nat ->
  0 <= delta -> rfft_accurate (@rfft_fwd _ Rf) (@rfft_inv _ Rf) k delta ->
  0 <= tau <= / 4 -> pow_accurate pow (@cis (SingleWith pow)) (@cis_neg (SingleWith pow)) kt tau ->
  (0 < n)%nat -> (0 < length ir)%nat -> block_of (length ir) m ir -> (0 < m)%nat -> (Z.of_nat m <= 2 ^ 24)%Z ->
  GetPartitionScheme kGarciaResults (Z.of_nat B) (Z.of_nat m) = Ok l ->
  (forall q, In q (tl l) -> 2 * (Z.to_nat (pl_size q) * B) <= 2 ^ kt)%nat ->
  exists nu, @nupc_make _ Rf ir n B = Ok nu /\
    convolves_within n 0 (fun _ => True) (response ir)
      (fun X c => scheme_error delta tau (2 ^ k) B 0 l (response ir c) X)
      (@nupc_process _ Rf) (@nupc_reset _) nu.
Proof.
  intros pow Rf delta tau k kt n B m ir l HB Hk2 Hd HR Htau Hpow Hn Hl Hsh Hm H24 El Hkt.
  destruct (nupc_single pow Rf k delta kt tau n B m ir l HB Hk2 HR Hd Hpow Htau Hn Hl Hsh Hm H24 Hkt El)
    as (nu & Ist & O & E & H0 & Hp & Hr & HO).
  exists nu. split; [exact E|].
  apply convolves_within_gen with (N := m) (Inv := Ist); auto.
  - intros c Hc. unfold response. destruct Hsh as [_ Hs]. rewrite Hs; auto. apply nth_In, Nat.mod_upper_bound. lia.
  - intros x T s len _ HT. destruct (Hp x T s len HT) as (s' & y & E' & HO' & H').
    exists s', y. split; [exact E'|]. split; [|exact H'].
    intros c i Hc Hi X HX. destruct (HO x c (T + i)%nat (y c i) X (HO' c i Hc Hi) (HX c)) as (W & S & _ & [_ G] & HS).
    assert (E0 : @ago Rarith (@fir Rarith m (fun j => nth j (response ir c) 0) (x c)) (T + i) 0
               = @fir Rarith m (fun j => nth j (response ir c) 0) (x c) (T + i)).
    { unfold ago. cbn [Nat.ltb Nat.leb]. rewrite Nat.sub_0_r. reflexivity. }
    refine (eq_ind_r (fun z => Rabs (y c i - z) <= _) _ E0). eapply Rle_trans; [exact G|].
    specialize (HS 0%nat). simpl in HS. lra.
Qed.
Print Assumptions C60_scheme_accuracy.

(** Blocks of 32 samples, a response of 5000 samples in two channels: 17 partitions of 32 samples, then 18 of 256.  The
    relative errors are below 1/3000 and 1/300. *)
Example C60_example :
  let ir : audio Rarith := [tab 5000 (fun i => / INR (S i)); tab 5000 (fun i => INR i / 200)] in
  let F := SingleWith exact_power in
  let delta := transform_error (3 * INR (2 ^ 6) * u24) 6 in
  let tau := 3 * INR (2 ^ 9) * u24 in
  let l := [{| pl_size := 1; pl_num := 17 |}; {| pl_size := 8; pl_num := 18 |}] in
  (exists nu, @nupc_make F (@fast_rfft F) ir 2 32 = Ok nu /\
    convolves_within 2 0 (fun _ => True) (response ir) (fun X c => scheme_error delta tau 64 32 0 l (response ir c) X)
      (@nupc_process F (@fast_rfft F)) (@nupc_reset F) nu) /\
  (1 + delta) ^ 3 * (1 + 2 * u24) ^ (17 + 3 + 2) - 1 <= / 3000 /\
  (1 + (tau + 12 * u24)) ^ (3 * Nat.log2 (2 * 256)) * (1 + 2 * u24) ^ (18 + 3 + 2) - 1 <= / 300.
Proof.
  intros ir F delta tau l.
  assert (Ht6 : 3 * INR (2 ^ 6) * u24 = 192 * u24) by (replace (INR (2 ^ 6)) with 64 by (rewrite INR_IZR_INZ; reflexivity); ring).
  assert (Ht9 : tau = 1536 * u24) by (unfold tau; replace (INR (2 ^ 9)) with 512 by (rewrite INR_IZR_INZ; reflexivity); ring).
  assert (Hd : 0 <= delta).
  { unfold delta, transform_error. rewrite Ht6.
    assert (1 <= (1 + (192 * u24 + 12 * u24)) ^ 6) by (apply pow_R1_Rle; unfold u24; lra). lra. }
  assert (Sh : forall c, In c ir -> length c = 5000%nat) by (intros c [<-|[<-|[]]]; apply tab_length).
  assert (L2 : length ir = 2%nat) by reflexivity. clearbody ir.
  split; [|split].
  - apply (C60_scheme_accuracy exact_power (@fast_rfft F) delta tau 6 9 2 32 5000 ir l).
    + lia.
    + cbn. lia.
    + exact Hd.
    + apply fast_rfft_accurate; [apply (exact_power_accurate 6); lia| |lia]. rewrite Ht6. unfold u24. lra.
    + rewrite Ht9. unfold u24. lra.
    + apply (exact_power_accurate 9). lia.
    + lia.
    + lia.
    + split; [auto|exact Sh].
    + lia.
    + lia.
    + vm_compute. reflexivity.
    + intros q [<-|[]]. cbn. lia.
  - assert (Eq : (1 + delta) ^ 3 = (1 + (192 * u24 + 12 * u24)) ^ 18).
    { unfold delta, transform_error. rewrite Ht6.
      replace (1 + ((1 + (192 * u24 + 12 * u24)) ^ 6 - 1)) with ((1 + (192 * u24 + 12 * u24)) ^ 6) by ring.
      rewrite <- pow_mult. reflexivity. }
    rewrite Eq. pose proof (power_cap (192 * u24 + 12 * u24) 18) as C1. pose proof (power_cap (2 * u24) 22) as C2.
    replace (INR 18) with 18 in C1 by (rewrite INR_IZR_INZ; reflexivity).
    replace (INR 22) with 22 in C2 by (rewrite INR_IZR_INZ; reflexivity).
    change (17 + 3 + 2)%nat with 22%nat. unfold u24 in *.
    specialize (C1 ltac:(lra) ltac:(lra)). specialize (C2 ltac:(lra) ltac:(lra)).
    set (p := (1 + (192 * / 16777216 + 12 * / 16777216)) ^ 18) in *. set (q := (1 + 2 * / 16777216) ^ 22) in *.
    assert (0 < p) by (apply pow_lt; lra). assert (0 < q) by (apply pow_lt; lra). nra.
  - rewrite Ht9. pose proof (power_cap (1536 * u24 + 12 * u24) 27) as C1. pose proof (power_cap (2 * u24) 23) as C2.
    replace (INR 27) with 27 in C1 by (rewrite INR_IZR_INZ; reflexivity).
    replace (INR 23) with 23 in C2 by (rewrite INR_IZR_INZ; reflexivity).
    change (18 + 3 + 2)%nat with 23%nat. change (3 * Nat.log2 (2 * 256))%nat with 27%nat. unfold u24 in *.
    specialize (C1 ltac:(lra) ltac:(lra)). specialize (C2 ltac:(lra) ltac:(lra)).
    set (p := (1 + (1536 * / 16777216 + 12 * / 16777216)) ^ 27) in *. set (q := (1 + 2 * / 16777216) ^ 23) in *.
    assert (0 < p) by (apply pow_lt; lra). assert (0 < q) by (apply pow_lt; lra). nra.
Qed.

(** ** routing *)
Lemma choose {T} n (d : T) (P : nat -> T -> Prop) : (forall c, (c < n)%nat -> exists w, P c w) ->
  exists f, forall c, (c < n)%nat -> P c (f c).
Proof.
  induction n as [|n IH]; intros H; [exists (fun _ => d); intros; lia|].
  destruct IH as (f & Hf); [intros; apply H; lia|]. destruct (H n ltac:(lia)) as (w & Hw).
  exists (fun c => if (c =? n)%nat then w else f c). intros c Hc. destruct (Nat.eqb_spec c n) as [->|]; [exact Hw|apply Hf; lia].
Qed.
Lemma rmix_near pow spec o (f : nat -> R) (f' W S : nat -> R) n :
  (forall c, (c < n)%nat -> phi <= W c /\ nearR (f c) (f' c) (W c) (S c)) ->
  nearR (@rmix (SingleWith pow) spec n f o) (@ssum Rarith n (fun c => if (nth c (cs_out spec) 0 =? o)%nat then f' c else 0))
    (rsum n (fun c => if (nth c (cs_out spec) 0 =? o)%nat then W c else 0))
    ((1 + u24) ^ n * rsum n (fun c => if (nth c (cs_out spec) 0 =? o)%nat then S c else 0)).
Proof.
  intros H. pose proof u24_pos as U. induction n as [|n IH].
  - cbn [rmix ssum rsum]. simpl. split; [rewrite Rabs_R0; lra|]. rewrite Rminus_0_r, Rabs_R0. lra.
  - specialize (IH (fun c Hc => H c ltac:(lia))). destruct (H n ltac:(lia)) as [HW HN].
    destruct (nearR_le _ _ _ _ IH) as [LI _]. destruct (nearR_le _ _ _ _ HN) as [LN _].
    cbn [rmix ssum rsum]. set (rest := rsum n (fun c => if (nth c (cs_out spec) 0 =? o)%nat then S c else 0)) in *.
    assert (Q1 : 1 <= (1 + u24) ^ n) by (apply pow_R1_Rle; lra).
    rewrite <- tech_pow_Rmult. set (qn := (1 + u24) ^ n) in *.
    destruct (nth n (cs_out spec) 0 =? o)%nat.
    + pose proof phi_pos. eapply nearR_weaken; [apply (nearR_add pow _ _ _ _ _ _ _ _ IH HN); lra|].
      rewrite Rmult_assoc. apply Rmult_le_compat_l; [lra|]. nra.
    + cbn [sadd Rarith]. rewrite !Rplus_0_r. eapply nearR_weaken; [exact IH|].
      assert (0 <= qn * rest) by lra. nra.
Qed.

(** C61.  A convolver in [float] for a response of [n] channels of [m] samples and blocks of [w] channels; it works on
    blocks of [2^e] samples (C18), with the partition scheme [l]. *)
Theorem C61_convolver_accuracy : forall pow (Rf : rfft (SingleWith pow)) delta tau e kt w m (ir : audio Rarith) maximum_block_size spec l,
  let n := length ir in
  conv_block_size (Z.of_nat maximum_block_size) (cs_internal spec) = Ok (Z.of_nat (2 ^ e)) ->
  0 <= delta -> rfft_accurate (@rfft_fwd _ Rf) (@rfft_inv _ Rf) (S e) delta ->
  0 <= tau <= / 4 -> pow_accurate pow (@cis (SingleWith pow)) (@cis_neg (SingleWith pow)) kt tau ->
  (0 < w)%nat -> (0 < n)%nat -> block_of n m ir -> (0 < m)%nat -> (Z.of_nat m <= 2 ^ 24)%Z ->
  GetPartitionScheme kGarciaResults (Z.of_nat (2 ^ e)) (Z.of_nat m) = Ok l ->
  (forall q, In q (tl l) -> 2 * (Z.to_nat (pl_size q) * 2 ^ e) <= 2 ^ kt)%nat ->
  (n <= length (cs_in spec))%nat -> (forall i, In i (firstn n (cs_in spec)) -> (i < w)%nat) ->
  (n <= length (cs_out spec))%nat -> (forall o, In o (firstn n (cs_out spec)) -> (o < w)%nat) ->
  exists c, @conv_make _ Rf ir maximum_block_size spec = Ok c /\
    convolves_routed_within w n (fun c => nth c ir []) (cs_in spec) (cs_out spec)
      (fun X o => rsum n (fun c => if (nth c (cs_out spec) 0 =? o)%nat
                                   then scheme_error delta tau (2 * 2 ^ e) (2 ^ e) n l (nth c ir []) X else 0))
      (@conv_process _ Rf) (@conv_reset _) c.
Proof.
  intros pow Rf delta tau e kt w m ir M spec l n Eb Hd HR Htau Hpow Hw Hn Hsh Hm H24 El Hkt Hi Hri Ho Hro.
  set (F := SingleWith pow) in *. pose proof (pow2_pos e) as HB. set (B := (2 ^ e)%nat) in *.
  assert (Hk2 : (2 ^ (S e - 1) < 2 * B <= 2 ^ S e)%nat).
  { replace (S e - 1)%nat with e by lia. cbn [Nat.pow]. fold B. lia. }
  destruct (nupc_single pow Rf (S e) delta kt tau n B m ir l HB Hk2 HR Hd Hpow Htau Hn Hn Hsh Hm H24 Hkt El)
    as (nu & Ist & O & E & H0 & Hp & Hr & HO).
  set (c := {| c_routing := @zeros F n B; c_nupc := nu; c_spec := spec; c_channels := n; c_block := B;
               c_num_samples := @num_samples F ir |} : convolver F).
  exists c. split.
  { unfold conv_make. eapply bind_eq; [exact Eb|]. cbv beta. rewrite Nat2Z.id. eapply bind_eq; [exact E|]. reflexivity. }
  intros sessions Hses.
  destruct (@sessions_genQ F _ (@conv_process F Rf) (@conv_reset F) w (fun _ => True)
              (@cst F n B spec Ist) (@cout F n spec O))
    with (sessions := sessions) (s := c) as (s' & outs & Ef & _ & HFo).
  - intros x T s k0 _ HT. exact (@conv_process_ok F Rf w n B spec Hn Hw HB Hi Ho Hri Hro Ist O Hp x T s k0 HT).
  - intros x T s x' HT. eapply (@conv_reset_ok F n B spec Ist); eauto.
  - intros x. unfold c. repeat split; auto. cbn [c_routing]. rewrite zeros_mk. eauto.
  - intros blocks Hb bl Hbl. destruct (Hses blocks Hb bl Hbl) as (k0 & Hk0). eauto.
  - exists s', outs. split; [exact Ef|]. eapply Forall2_mono; [|exact HFo].
    intros ins os (H1 & H2 & H3) X HX. split; [exact H1|]. split.
    { intros i Hi'. destruct (H2 i Hi') as (k0 & _ & A1 & A2). exists k0. split; assumption. }
    intros o t Hoo Ht. destruct (H3 o Hoo) as [_ H4]. destruct (H4 t Ht) as (f & Hf & Ev).
    assert (Hlen : forall q, (q < w)%nat -> length (channel q ins) = length (channel o ins)).
    { assert (H2' : forall i, (i < length ins)%nat -> exists k, @block_of Rarith w k (nth i ins [])).
      { intros j Hj. destruct (H2 j Hj) as (k0 & _ & A1 & _). exists k0. exact A1. }
      clear - H2' Hoo. revert H2'. induction ins as [|bl ins IH]; intros H2 q Hq; auto.
      cbn [channel map concat] in *. unfold channel in *. cbn [map concat]. rewrite !app_length. f_equal.
      - destruct (H2 0%nat (Nat.lt_0_succ _)) as (k0 & [HL Hb]). cbn [nth] in *.
        rewrite !Hb; auto; apply nth_In; lia.
      - apply IH; auto. intros j Hj. apply (H2 (S j)). cbn. lia. }
    set (xr := fun ch => @chan_fun Rarith ins (nth ch (cs_in spec) 0%nat)) in *.
    set (fe := fun c => @fir Rarith m (fun j => nth j (response ir c) 0) (xr c) t).
    assert (HC : forall c, (c < n)%nat -> exists WS : R * R, phi <= fst WS /\ nearR (f c) (fe c) (fst WS) (snd WS) /\
        (1 + 2 * u24) ^ n * snd WS - fst WS <= scheme_error delta tau (2 * B) B n l (nth c ir []) X).
    { intros ch Hc. destruct (HO xr ch t (f ch) X (Hf ch Hc)) as (W & S & A1 & A2 & A3).
      - intros i. apply HX.
      - exists (W, S). cbn [fst snd]. split; [exact A1|]. split; [exact A2|]. specialize (A3 n).
        unfold response in A3. fold n in A3. rewrite Nat.mod_small in A3 by exact Hc. exact A3. }
    assert (HW : exists WS : nat -> R * R, forall c, (c < n)%nat -> phi <= fst (WS c) /\ nearR (f c) (fe c) (fst (WS c)) (snd (WS c)) /\
        (1 + 2 * u24) ^ n * snd (WS c) - fst (WS c) <= scheme_error delta tau (2 * B) B n l (nth c ir []) X).
    { exact (choose n (0, 0) _ HC). }
    destruct HW as (WS & HWS).
    assert (Emix : nth t (@mixed Rarith n (fun c => nth c ir []) (cs_in spec) (cs_out spec) ins o) 0
      = @ssum Rarith n (fun c => if (nth c (cs_out spec) 0 =? o)%nat then fe c else 0)).
    { unfold mixed. rewrite tab_nth by exact Ht. apply ssum_ext. intros ch Hc.
      destruct (nth ch (cs_out spec) 0 =? o)%nat; [|reflexivity].
      unfold fe. set (i := nth ch (cs_in spec) 0%nat).
      assert (Hiw : (i < w)%nat) by exact (inp_ok w n B spec Hn Hw HB Hi Ho Hri ch Hc).
      unfold convolve. rewrite tab_nth by (rewrite Hlen; auto).
      pose proof (@fir_list_conv Rarith Rarith_laws m (nth ch ir []) (@chan_fun Rarith ins i) t (length (channel i ins))) as HFL.
      unfold response. fold n. rewrite Nat.mod_small by exact Hc. etransitivity; [|symmetry; apply HFL].
      + f_equal. apply tab_of_list.
      + destruct Hsh as [_ Hs]. rewrite Hs; auto. apply nth_In. exact Hc.
      + rewrite Hlen; auto. }
    rewrite Emix. refine (eq_ind_r (fun z => Rabs (z - _) <= _) _ Ev).
    destruct (rmix_near pow spec o f fe (fun c => fst (WS c)) (fun c => snd (WS c)) n) as [_ G].
    { intros ch Hc. destruct (HWS ch Hc) as (A1 & A2 & _). split; assumption. }
    eapply Rle_trans; [exact G|]. pose proof u24_pos as U.
    assert (QN : 0 <= (1 + u24) ^ n <= (1 + 2 * u24) ^ n) by (split; [apply pow_le; lra|apply pow_incr; lra]).
    set (qn := (1 + u24) ^ n) in *. set (q2 := (1 + 2 * u24) ^ n) in *.
    rewrite <- rsum_scal, <- rsum_minus. apply rsum_le. intros ch Hc.
    destruct (nth ch (cs_out spec) 0 =? o)%nat; [|lra].
    destruct (HWS ch Hc) as (_ & A2 & A3). destruct (nearR_le _ _ _ _ A2) as [LN _].
    assert (qn * snd (WS ch) <= q2 * snd (WS ch)) by (apply Rmult_le_compat_r; lra). lra.
Qed.
Print Assumptions C61_convolver_accuracy.

(** A response of 5000 samples in three channels, blocks of at most 48 samples in three channels; output 2 stays silent,
    and its error is 0. *)
Example C61_example :
  let ir : audio Rarith := [tab 5000 (fun i => / INR (S i)); tab 5000 (fun i => INR i / 200); tab 5000 (fun _ => 1)] in
  let F := SingleWith exact_power in
  let delta := transform_error (3 * INR (2 ^ 6) * u24) 6 in
  let tau := 3 * INR (2 ^ 9) * u24 in
  let l := [{| pl_size := 1; pl_num := 17 |}; {| pl_size := 8; pl_num := 18 |}] in
  let spec := {| cs_in := [0; 2; 2]%nat; cs_out := [1; 0; 1]%nat; cs_fade := kCrossfade; cs_internal := None |} in
  let err := fun X o => rsum 3 (fun c => if (nth c (cs_out spec) 0 =? o)%nat
                                   then scheme_error delta tau (2 * 2 ^ 5) (2 ^ 5) 3 l (nth c ir []) X else 0) in
  (exists c, @conv_make F (@fast_rfft F) ir 48 spec = Ok c /\
    convolves_routed_within 3 3 (fun c => nth c ir []) (cs_in spec) (cs_out spec) err
      (@conv_process F (@fast_rfft F)) (@conv_reset F) c) /\
  (forall X, err X 2%nat = 0) /\
  forall X, err X 1%nat = scheme_error delta tau 64 32 3 l (nth 0 ir []) X + scheme_error delta tau 64 32 3 l (nth 2 ir []) X.
Proof.
  intros ir F delta tau l spec err.
  assert (Ht6 : 3 * INR (2 ^ 6) * u24 = 192 * u24) by (replace (INR (2 ^ 6)) with 64 by (rewrite INR_IZR_INZ; reflexivity); ring).
  assert (Ht9 : tau = 1536 * u24) by (unfold tau; replace (INR (2 ^ 9)) with 512 by (rewrite INR_IZR_INZ; reflexivity); ring).
  assert (Hd : 0 <= delta).
  { unfold delta, transform_error. rewrite Ht6.
    assert (1 <= (1 + (192 * u24 + 12 * u24)) ^ 6) by (apply pow_R1_Rle; unfold u24; lra). lra. }
  assert (Sh : forall c, In c ir -> length c = 5000%nat) by (intros c [<-|[<-|[<-|[]]]]; apply tab_length).
  assert (L3 : length ir = 3%nat) by reflexivity.
  split; [|split].
  - clearbody ir. unfold err.
    pose proof (C61_convolver_accuracy exact_power (@fast_rfft F) delta tau 5 9 3 5000 ir 48 spec l) as G.
    cbv zeta in G. rewrite L3 in G. apply G; try lia; clear G.
    + vm_compute. reflexivity.
    + exact Hd.
    + apply fast_rfft_accurate; [apply (exact_power_accurate 6); lia| |lia]. rewrite Ht6. unfold u24. lra.
    + rewrite Ht9. unfold u24. lra.
    + apply (exact_power_accurate 9). lia.
    + split; [auto|exact Sh].
    + vm_compute. reflexivity.
    + intros q [<-|[]]. cbn. lia.
    + cbn. lia.
    + cbn. intros i [<-|[<-|[<-|[]]]]; lia.
    + cbn. lia.
    + cbn. intros i [<-|[<-|[<-|[]]]]; lia.
  - intros X. unfold err. clear. cbn [rsum spec cs_out nth Nat.eqb]. lra.
  - intros X. unfold err. cbn [rsum spec cs_out nth Nat.eqb]. change (2 * 2 ^ 5)%nat with 64%nat. change (2 ^ 5)%nat with 32%nat.
    rewrite Rplus_0_l, Rplus_0_r. reflexivity.
Qed.

(** * C75: cutting the input into other blocks, in single precision *)
From Coq Require Import Reals Lra Lia ZArith Floats.SpecFloat.
From Verif.Model Require Import Base Arith ArithReal ArithSingle ArithIEEE Juce Float32 Partitioning PartitionSchemes
     UniformPartitionedConvolver TimeDistributedNUPC Convolver.
From Verif.Spec Require Import Transform Buffers Signal Routing Precision PrecisionScheme Memory Overflow.
From Verif.Proofs Require Import Lists ComplexAlg Blocks Streams SingleProof.
From Verif.Proofs Require Import SingleReal RealFFTProof SingleFFT SingleRoots Ext ExtBounds OverflowProof OverflowExample.
From Verif.Props Require Import PrecisionSchemeProps OverflowProps.
Open Scope R_scope.

(** Two sequences of blocks of [w] channels that carry the same samples on every channel have the same peaks ... *)
Lemma beyond : forall w (blocks : list (audio Rarith)) c, blocks_of w blocks -> (w <= c)%nat -> channel c blocks = [].
Proof.
  intros w blocks c H Hc. unfold channel. induction blocks as [|b t IH]; [reflexivity|].
  cbn [map concat]. rewrite IH by (intros b' Hb; apply H; right; exact Hb).
  destruct (H b (or_introl eq_refl)) as (m & Lb & _). rewrite nth_overflow by (rewrite Lb; exact Hc). reflexivity.
Qed.
Lemma channels_same : forall w (blocks blocks' : list (audio Rarith)), blocks_of w blocks -> blocks_of w blocks' ->
  (forall i, (i < w)%nat -> channel i blocks = channel i blocks') -> forall i, channel i blocks = channel i blocks'.
Proof.
  intros w blocks blocks' H1 H2 H i. destruct (Nat.lt_ge_cases i w) as [L|L]; [apply H, L|].
  rewrite (beyond w blocks i H1 L), (beyond w blocks' i H2 L). reflexivity.
Qed.
(** ... and the same exact output. *)
Lemma mixed_same : forall n h inputs outputs (blocks blocks' : list (audio Rarith)) o,
  (forall i, channel i blocks = channel i blocks') ->
  @mixed Rarith n h inputs outputs blocks o = @mixed Rarith n h inputs outputs blocks' o.
Proof.
  intros n h inputs outputs blocks blocks' o H. unfold mixed. rewrite H.
  apply tab_ext. intros t _. apply ssum_ext. intros c _. rewrite H. reflexivity.
Qed.

(** What two runs within the error [E] of the exact output differ by. *)
Lemma two_cuts : forall w n h inputs outputs (E : R -> nat -> R) (ss ss' : list (list (audio Rarith))),
  (forall blocks, In blocks ss -> blocks_of w blocks) -> (forall blocks, In blocks ss' -> blocks_of w blocks) ->
  Forall2 (fun blocks blocks' => forall i, (i < w)%nat -> channel i blocks = channel i blocks') ss ss' ->
  forall outs outs',
  Forall2 (fun ins outs => forall X, peak_below X ins -> routed_within w n h inputs outputs (E X) ins outs) ss outs ->
  Forall2 (fun ins outs => forall X, peak_below X ins -> routed_within w n h inputs outputs (E X) ins outs) ss' outs' ->
  forall k X o t, peak_below X (nth k ss []) -> (k < length ss)%nat -> (o < w)%nat ->
    (t < length (channel o (nth k ss [])))%nat ->
    Rabs (nth t (channel o (nth k outs [])) 0 - nth t (channel o (nth k outs' [])) 0) <= 2 * E X o.
Proof.
  intros w n h inputs outputs E0 ss ss' Hs Hs' Hch outs outs' F1 F2 k X o t HX Hk Hoo Ht. revert outs outs' F1 F2 k HX Hk Ht.
  induction Hch as [|b b' tb tb' Hb Htb IH]; intros outs outs' F1 F2 k HX Hk Ht; [cbn in Hk; lia|].
  inversion F1 as [|? o1 ? t1 G1 T1]; subst. inversion F2 as [|? o2 ? t2 G2 T2]; subst.
  destruct k as [|k].
  - cbn [nth] in *. clear IH T1 T2 F1 F2.
    assert (Hall := channels_same w b b' (Hs b (or_introl eq_refl)) (Hs' b' (or_introl eq_refl)) Hb).
    assert (HX' : peak_below X b') by (intros c0 t0; rewrite <- Hall; apply HX).
    destruct (G1 X HX) as (_ & _ & R1). destruct (G2 X HX') as (_ & _ & R2).
    specialize (R1 o t Hoo Ht). specialize (R2 o t Hoo ltac:(rewrite <- Hall; exact Ht)).
    rewrite <- (mixed_same _ _ _ _ b b' o Hall) in R2.
    match goal with |- Rabs (?a - ?b) <= 2 * ?c => set (x := a); set (z := b); set (E := c) end.
    match type of R1 with Rabs (_ - ?a) <= _ => set (y := a) in * end.
    assert (S1 : Rabs (x - y) <= E) by exact R1. assert (S2 : Rabs (z - y) <= E) by exact R2.
    replace (x - z) with ((x - y) + - (z - y)) by (unfold Rminus; ring).
    eapply Rle_trans; [apply Rabs_triang|]. rewrite Rabs_Ropp. lra.
  - cbn [nth] in *. apply (IH (fun q Hq => Hs q (or_intror Hq)) (fun q Hq => Hs' q (or_intror Hq)) t1 t2 T1 T2 k HX ltac:(cbn in Hk; lia) Ht).
Qed.

(** C75.  The same input cut into blocks in two ways, in [float], with resets at the same samples: every output sample of the one
    is within twice the error of C61 of the same sample of the other.  A session is what lies between two resets. *)
Theorem C75_cuts_in_float : forall pow (Rf : rfft (SingleWith pow)) delta tau e kt w m (ir : audio Rarith) maximum_block_size spec l,
  let n := length ir in
  conv_block_size (Z.of_nat maximum_block_size) (cs_internal spec) = Ok (Z.of_nat (2 ^ e)) ->
  0 <= delta -> rfft_accurate (@rfft_fwd _ Rf) (@rfft_inv _ Rf) (S e) delta ->
  0 <= tau <= / 4 -> pow_accurate pow (@cis (SingleWith pow)) (@cis_neg (SingleWith pow)) kt tau ->
  (0 < w)%nat -> (0 < n)%nat -> block_of n m ir -> (0 < m)%nat -> (Z.of_nat m <= 2 ^ 24)%Z ->
  GetPartitionScheme kGarciaResults (Z.of_nat (2 ^ e)) (Z.of_nat m) = Ok l ->
  (forall q, In q (tl l) -> 2 * (Z.to_nat (pl_size q) * 2 ^ e) <= 2 ^ kt)%nat ->
  (n <= length (cs_in spec))%nat -> (forall i, In i (firstn n (cs_in spec)) -> (i < w)%nat) ->
  (n <= length (cs_out spec))%nat -> (forall o, In o (firstn n (cs_out spec)) -> (o < w)%nat) ->
  exists c, @conv_make _ Rf ir maximum_block_size spec = Ok c /\
    forall sessions sessions',
    (forall blocks, In blocks sessions -> blocks_of w blocks) -> (forall blocks, In blocks sessions' -> blocks_of w blocks) ->
    Forall2 (fun blocks blocks' => forall i, (i < w)%nat -> channel i blocks = channel i blocks') sessions sessions' ->
    exists c1 outs c2 outs',
      feed_sessions (@conv_process _ Rf) (@conv_reset _) c sessions = Ok (c1, outs) /\
      feed_sessions (@conv_process _ Rf) (@conv_reset _) c sessions' = Ok (c2, outs') /\
      forall k X o t, peak_below X (nth k sessions []) -> (k < length sessions)%nat -> (o < w)%nat ->
        (t < length (channel o (nth k sessions [])))%nat ->
        Rabs (nth t (channel o (nth k outs [])) 0 - nth t (channel o (nth k outs' [])) 0) <=
        2 * rsum n (fun c => if (nth c (cs_out spec) 0 =? o)%nat
                             then scheme_error delta tau (2 * 2 ^ e) (2 ^ e) n l (nth c ir []) X else 0).
Proof.
  intros pow Rf delta tau e kt w m ir M spec l n Eb Hd Hacc Htau Hpow Hw Hn Hir Hm H24 El Hkt Hi Hri Ho Hro.
  destruct (C61_convolver_accuracy pow Rf delta tau e kt w m ir M spec l Eb Hd Hacc Htau Hpow Hw Hn Hir Hm H24 El Hkt Hi Hri Ho Hro)
    as (c & Ec & H).
  exists c. split; [exact Ec|]. intros ss ss' Hs Hs' Hch.
  destruct (H ss Hs) as (c1 & outs & E1 & F1). destruct (H ss' Hs') as (c2 & outs' & E2 & F2).
  exists c1, outs, c2, outs'. split; [exact E1|]. split; [exact E2|].
  intros k X o t. exact (two_cuts w _ _ _ _ _ ss ss' Hs Hs' Hch outs outs' F1 F2 k X o t).
Qed.
Print Assumptions C75_cuts_in_float.

(** With the numbers of IEEE 754: the numbers that come out of the two runs are numbers (no infinity, no NaN), within the same
    distance of each other. *)
Theorem C75_cuts_in_ieee : forall cosf sinf powf pow (Ri : rfft (IEEE cosf sinf powf)) (Rs : rfft (SingleWith pow)) kt tau delta
  w m (ir : audio (IEEE cosf sinf powf)) (ir' : audio (SingleWith pow)) maximum_block_size spec e l,
  let n := length ir' in
  rfft_sized Rs -> rfft_bounded (@rfft_fwd _ Rs) (@rfft_inv _ Rs) ->
  0 <= delta -> rfft_accurate (@rfft_fwd _ Rs) (@rfft_inv _ Rs) (S e) delta ->
  @same_transform (IEEE cosf sinf powf) number (rfft_fwd Ri) (rfft_inv Ri) (@rfft_fwd _ Rs) (@rfft_inv _ Rs) ->
  0 <= tau <= / 4 -> pow_accurate pow (@cis (SingleWith pow)) (@cis_neg (SingleWith pow)) kt tau ->
  @same_roots (IEEE cosf sinf powf) number kt pow ->
  conv_block_size (Z.of_nat maximum_block_size) (cs_internal spec) = Ok (Z.of_nat (2 ^ e)) ->
  (0 < w)%nat -> (0 < n <= 1024)%nat -> block_of n m ir' -> (0 < m)%nat -> (Z.of_nat m <= 2 ^ 24)%Z ->
  GetPartitionScheme kGarciaResults (Z.of_nat (2 ^ e)) (Z.of_nat m) = Ok l ->
  (forall q, In q (tl l) -> 2 * (Z.to_nat (pl_size q) * 2 ^ e) <= 2 ^ kt)%nat ->
  (n <= length (cs_in spec))%nat -> (forall i, In i (firstn n (cs_in spec)) -> (i < w)%nat) ->
  (n <= length (cs_out spec))%nat -> (forall o, In o (firstn n (cs_out spec)) -> (o < w)%nat) ->
  same_block ir ir' -> block_below 65536 ir' ->
  exists c, conv_make Ri ir maximum_block_size spec = Ok c /\
    forall one (one' : list (list (audio Rarith))) two (two' : list (list (audio Rarith))), same_sessions one one' -> same_sessions two two' ->
    (forall blocks, In blocks one' \/ In blocks two' -> @blocks_of (SingleWith pow) w blocks /\ forall b, In b blocks -> block_below 65536 b) ->
    Forall2 (fun blocks blocks' => forall i, (i < w)%nat -> @channel Rarith i blocks = @channel Rarith i blocks') one' two' ->
    exists c1 outs1 outs1' c2 outs2 outs2',
      feed_sessions (conv_process Ri) conv_reset c one = Ok (c1, outs1) /\ same_sessions outs1 outs1' /\
      feed_sessions (conv_process Ri) conv_reset c two = Ok (c2, outs2) /\ same_sessions outs2 outs2' /\
      forall k X o t, peak_below X (nth k one' []) -> (k < length one')%nat -> (o < w)%nat ->
        (t < length (@channel Rarith o (nth k one' [])))%nat ->
        Rabs (nth t (@channel Rarith o (nth k outs1' [])) 0 - nth t (@channel Rarith o (nth k outs2' [])) 0) <=
        2 * rsum n (fun c => if (nth c (cs_out spec) 0 =? o)%nat
                             then scheme_error delta tau (2 * 2 ^ e) (2 ^ e) n l (nth c ir' []) X else 0).
Proof.
  intros cosf sinf powf pow Ri Rs kt tau delta w m ir ir' M spec e l n HS HB Hd Hacc HT Htau Hpow HR Eb Hw Hn Hir Hm H24 El Hkt Hi Hri Ho Hro Hsame Hbel.
  destruct (C72_ieee_accuracy cosf sinf powf pow Ri Rs kt tau delta w m ir ir' M spec e l HS HB Hd Hacc HT Htau Hpow HR Eb Hw Hn Hir Hm H24 El Hkt
              Hi Hri Ho Hro Hsame Hbel) as (c & Ec & H).
  exists c. split; [exact Ec|]. intros one one' two two' S1 S2 Hb Hch.
  destruct (H one one' S1 (fun b q => Hb b (or_introl q))) as (c1 & o1 & o1' & E1 & T1 & F1).
  destruct (H two two' S2 (fun b q => Hb b (or_intror q))) as (c2 & o2 & o2' & E2 & T2 & F2).
  exists c1, o1, o1', c2, o2, o2'. split; [exact E1|]. split; [exact T1|]. split; [exact E2|]. split; [exact T2|].
  intros k X o t. exact (two_cuts w _ _ _ _ _ one' two' (fun b q => proj1 (Hb b (or_introl q))) (fun b q => proj1 (Hb b (or_intror q)))
                           Hch o1' o2' F1 F2 k X o t).
Qed.
Print Assumptions C75_cuts_in_ieee.

(** The convolver of C61_example: 47 samples as one block, or as a block of 40 and one of 7; a reset; then 5 samples as one block
    or as five. *)
Example C75_example :
  let ir : audio Rarith := [tab 5000 (fun i => / INR (S i)); tab 5000 (fun i => INR i / 200); tab 5000 (fun _ => 1)] in
  let F := SingleWith exact_power in
  let delta := transform_error (3 * INR (2 ^ 6) * u24) 6 in
  let tau := 3 * INR (2 ^ 9) * u24 in
  let l := [{| pl_size := 1; pl_num := 17 |}; {| pl_size := 8; pl_num := 18 |}] in
  let spec := {| cs_in := [0; 2; 2]%nat; cs_out := [1; 0; 1]%nat; cs_fade := kCrossfade; cs_internal := None |} in
  let three := fun (x : list R) => [x; map (fun v => 2 * v) x; map Ropp x] : audio Rarith in
  let sessions := [[three (tab 47 INR)]; [three (tab 5 (fun i => / INR (S i)))]] in
  let sessions' := [[three (tab 40 INR); three (tab 7 (fun i => INR (40 + i)))]; map (fun i => three [/ INR (S i)]) (seq 0 5)] in
  exists c, @conv_make F (@fast_rfft F) ir 48 spec = Ok c /\
  exists c1 outs c2 outs',
    feed_sessions (@conv_process F (@fast_rfft F)) (@conv_reset F) c sessions = Ok (c1, outs) /\
    feed_sessions (@conv_process F (@fast_rfft F)) (@conv_reset F) c sessions' = Ok (c2, outs') /\
    forall t, (t < 47)%nat ->
      Rabs (nth t (@channel Rarith 0 (nth 0 outs [])) 0 - nth t (@channel Rarith 0 (nth 0 outs' [])) 0) <=
      2 * scheme_error delta tau 64 32 3 l (nth 1 ir []) 100.
Proof.
  intros ir F delta tau l spec three sessions sessions'.
  assert (Ht6 : 3 * INR (2 ^ 6) * u24 = 192 * u24) by (replace (INR (2 ^ 6)) with 64 by (rewrite INR_IZR_INZ; reflexivity); ring).
  assert (Ht9 : tau = 1536 * u24) by (unfold tau; replace (INR (2 ^ 9)) with 512 by (rewrite INR_IZR_INZ; reflexivity); ring).
  assert (Hd : 0 <= delta).
  { unfold delta, transform_error. rewrite Ht6.
    assert (1 <= (1 + (192 * u24 + 12 * u24)) ^ 6) by (apply pow_R1_Rle; unfold u24; lra). lra. }
  assert (Sh : forall c, In c ir -> length c = 5000%nat) by (intros c [<-|[<-|[<-|[]]]]; apply tab_length).
  assert (L3 : length ir = 3%nat) by reflexivity. clearbody ir.
  assert (B3 : forall m x, length x = m -> @block_of Rarith 3 m (three x)).
  { intros m x Hx. split; [reflexivity|]. intros c [<-|[<-|[<-|[]]]]; rewrite ?map_length; exact Hx. }
  pose proof (C75_cuts_in_float exact_power (@fast_rfft F) delta tau 5 9 3 5000 ir 48 spec l) as G.
  cbv zeta in G. rewrite L3 in G. destruct G as (c & Ec & G); try lia.
  - vm_compute. reflexivity.
  - exact Hd.
  - apply fast_rfft_accurate; [apply (exact_power_accurate 6); lia| |lia]. rewrite Ht6. unfold u24. lra.
  - rewrite Ht9. unfold u24. lra.
  - apply (exact_power_accurate 9). lia.
  - split; [auto|exact Sh].
  - vm_compute. reflexivity.
  - intros q [<-|[]]. cbn. lia.
  - cbn. lia.
  - cbn. intros i [<-|[<-|[<-|[]]]]; lia.
  - cbn. lia.
  - cbn. intros i [<-|[<-|[<-|[]]]]; lia.
  - exists c. split; [exact Ec|]. destruct (G sessions sessions') as (c1 & outs & c2 & outs' & E1 & E2 & HH).
    + intros bl [<-|[<-|[]]] b [<-|[]]; eexists; apply B3, tab_length.
    + intros bl [<-|[<-|[]]] b Hin.
      * destruct Hin as [<-|[<-|[]]]; eexists; apply B3, tab_length.
      * apply in_map_iff in Hin as (i & <- & _). exists 1%nat. now apply B3.
    + constructor; [|constructor; [|constructor]]; intros [|[|[|i]]] Hi; try lia; reflexivity.
    + exists c1, outs, c2, outs'. split; [exact E1|]. split; [exact E2|]. intros t Ht.
      assert (HX : peak_below 100 (nth 0 sessions [])).
      { cbn [nth sessions]. intros ch i.
        assert (X0 : forall i, Rabs (nth i (tab 47 INR) 0) <= 46).
        { intros j. destruct (Nat.lt_ge_cases j 47) as [Lj|Lj].
          - rewrite tab_nth by exact Lj. rewrite Rabs_pos_eq by apply pos_INR. change 46 with (IZR (Z.of_nat 46)). rewrite INR_IZR_INZ. apply IZR_le. lia.
          - rewrite nth_overflow by (rewrite tab_length; exact Lj). rewrite Rabs_R0. lra. }
        assert (X2 : forall i, Rabs (nth i (map (fun v => 2 * v) (tab 47 INR)) 0) <= 92).
        { intros j. replace (nth j (map (fun v => 2 * v) (tab 47 INR)) 0) with (2 * nth j (tab 47 INR) 0)
            by (rewrite <- (map_nth (fun v => 2 * v) (tab 47 INR) 0 j), Rmult_0_r; reflexivity).
          rewrite Rabs_mult, (Rabs_pos_eq 2) by lra. specialize (X0 j). lra. }
        assert (X3 : forall i, Rabs (nth i (map Ropp (tab 47 INR)) 0) <= 46).
        { intros j. replace (nth j (map Ropp (tab 47 INR)) 0) with (- nth j (tab 47 INR) 0)
            by (rewrite <- (map_nth Ropp (tab 47 INR) 0 j), Ropp_0; reflexivity).
          rewrite Rabs_Ropp. apply X0. }
        assert (Fl : floor50 <= 1) by (unfold floor50; cbn; lra).
        assert (Nn : forall k, nth k (@nil R) 0 = 0) by (intros [|k]; reflexivity).
        unfold channel. cbn [map concat]. rewrite app_nil_r.
        destruct ch as [|[|[|ch]]]; cbn [three nth]; change (@s0 Rarith) with 0.
        - eapply Rle_trans; [apply Rplus_le_compat; [exact (X0 i)|exact Fl]|lra].
        - eapply Rle_trans; [apply Rplus_le_compat; [exact (X2 i)|exact Fl]|lra].
        - eapply Rle_trans; [apply Rplus_le_compat; [exact (X3 i)|exact Fl]|lra].
        - apply (Rle_trans _ (Rabs 0 + floor50)); [right; f_equal; f_equal; destruct ch, i; reflexivity|rewrite Rabs_R0; lra]. }
      eapply Rle_trans; [exact (HH 0%nat 100 0%nat t HX ltac:(cbn; lia) ltac:(lia) Ht)|].
      cbn [rsum spec cs_out nth Nat.eqb]. change (2 * 2 ^ 5)%nat with 64%nat. change (2 ^ 5)%nat with 32%nat. lra.
Qed.

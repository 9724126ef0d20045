(** * C72: the convolver in IEEE arithmetic: no infinity and no NaN *)
From Coq Require Import Reals Lra Lia ZArith Floats.SpecFloat.
From Flocq Require Import Core BinarySingleNaN.
From Verif.Model Require Import Base Arith ArithReal ArithSingle ArithIEEE Juce Float32 Partitioning PartitionSchemes Convolver.
From Verif.Spec Require Import Transform Buffers Signal Routing Layout Precision PrecisionScheme Memory Overflow.
From Verif.Proofs Require Import Lists Blocks Streams SingleProof SingleReal RealFFTProof SingleFFT Ext ExtBounds OverflowProof OverflowExample.
From Verif.Props Require Import PrecisionSchemeProps.
Open Scope R_scope.

(** C72.  The convolver of C61 with the numbers of IEEE 754 binary32 (ArithIEEE.v), for responses of at most 1024 channels and
    2^24 samples, and all samples (response and input) finite and at most 2^16 = 65536 in size (0 dB is 1).  Whatever blocks it is
    fed, with resets in between, every number it puts out is finite, and is the one of the arithmetic of C56-C65 (ArithSingle.v),
    which has no infinities. *)
Theorem C72_no_overflow : forall cosf sinf powf pow (Ri : rfft (IEEE cosf sinf powf)) (Rs : rfft (SingleWith pow)) kt tau
  w m (ir : audio (IEEE cosf sinf powf)) (ir' : audio (SingleWith pow)) maximum_block_size spec e l,
  let n := length ir' in
  rfft_sized Rs -> rfft_bounded (@rfft_fwd _ Rs) (@rfft_inv _ Rs) ->
  @same_transform (IEEE cosf sinf powf) number (rfft_fwd Ri) (rfft_inv Ri) (@rfft_fwd _ Rs) (@rfft_inv _ Rs) ->
  0 <= tau <= / 4 -> pow_accurate pow (@cis (SingleWith pow)) (@cis_neg (SingleWith pow)) kt tau ->
  @same_roots (IEEE cosf sinf powf) number kt pow ->
  conv_block_size (Z.of_nat maximum_block_size) (cs_internal spec) = Ok (Z.of_nat (2 ^ e)) ->
  (0 < w)%nat -> (0 < n <= 1024)%nat -> block_of n m ir' -> (0 < m)%nat -> (Z.of_nat m <= 2 ^ 24)%Z ->
  GetPartitionScheme kGarciaResults (Z.of_nat (2 ^ e)) (Z.of_nat m) = Ok l ->
  (forall q, In q (tl l) -> 2 * (Z.to_nat (pl_size q) * 2 ^ e) <= 2 ^ kt)%nat ->
  (n <= length (cs_in spec))%nat -> (forall i, In i (firstn n (cs_in spec)) -> (i < w)%nat) ->
  (n <= length (cs_out spec))%nat -> (forall o, In o (firstn n (cs_out spec)) -> (o < w)%nat) ->
  same_block ir ir' -> block_below 65536 ir' ->
  exists c c', conv_make Ri ir maximum_block_size spec = Ok c /\ conv_make Rs ir' maximum_block_size spec = Ok c' /\
    forall sessions sessions', same_sessions sessions sessions' ->
    (forall blocks, In blocks sessions' -> @blocks_of (SingleWith pow) w blocks /\ forall b, In b blocks -> block_below 65536 b) ->
    exists s outs s' outs', feed_sessions (conv_process Ri) conv_reset c sessions = Ok (s, outs) /\
      feed_sessions (conv_process Rs) conv_reset c' sessions' = Ok (s', outs') /\ same_sessions outs outs'.
Proof.
  intros cosf sinf powf pow Ri Rs kt tau w m ir ir' M spec e l n HRs HRb HRi Htau Hpow Hroots Eb Hw Hn Hsh Hm H24 El Hkt Hi Hri Ho Hro Hir Hb.
  assert (X : Xmax = 65536) by (unfold Xmax; lra). rewrite <- X in *.
  destruct (two_runs cosf sinf powf pow Ri Rs HRs HRb HRi kt tau Htau Hpow Hroots w m ir ir' M spec e l Eb Hw Hn Hsh Hm H24 El Hkt Hi Hri Ho Hro Hir Hb)
    as (c & c' & E1 & E2 & H).
  exists c, c'. split; [exact E1|]. split; [exact E2|]. intros ss ss' Hss Hses. destruct (H ss ss' Hss Hses) as (s & outs & s' & outs' & F1 & F2 & F3 & _).
  exists s, outs, s', outs'. auto.
Qed.
Print Assumptions C72_no_overflow.

(** With the accuracy contract for the transform added, the numbers that come out in IEEE arithmetic are within the error of C61 of
    the exact convolution. *)
Theorem C72_ieee_accuracy : forall cosf sinf powf pow (Ri : rfft (IEEE cosf sinf powf)) (Rs : rfft (SingleWith pow)) kt tau delta
  w m (ir : audio (IEEE cosf sinf powf)) (ir' : audio (SingleWith pow)) maximum_block_size spec e l,
  let n := length ir' in
  rfft_sized Rs -> rfft_bounded (@rfft_fwd _ Rs) (@rfft_inv _ Rs) ->
  0 <= delta -> rfft_accurate (@rfft_fwd _ Rs) (@rfft_inv _ Rs) (S e) delta ->
  @same_transform (IEEE cosf sinf powf) number (rfft_fwd Ri) (rfft_inv Ri) (@rfft_fwd _ Rs) (@rfft_inv _ Rs) ->
  0 <= tau <= / 4 -> pow_accurate pow (@cis (SingleWith pow)) (@cis_neg (SingleWith pow)) kt tau ->
  @same_roots (IEEE cosf sinf powf) number kt pow ->
  conv_block_size (Z.of_nat maximum_block_size) (cs_internal spec) = Ok (Z.of_nat (2 ^ e)) ->
  (0 < w)%nat -> (0 < n <= 1024)%nat -> block_of n m ir' -> (0 < m)%nat -> (Z.of_nat m <= 2 ^ 24)%Z ->
  GetPartitionScheme kGarciaResults (Z.of_nat (2 ^ e)) (Z.of_nat m) = Ok l ->
  (forall q, In q (tl l) -> 2 * (Z.to_nat (pl_size q) * 2 ^ e) <= 2 ^ kt)%nat ->
  (n <= length (cs_in spec))%nat -> (forall i, In i (firstn n (cs_in spec)) -> (i < w)%nat) ->
  (n <= length (cs_out spec))%nat -> (forall o, In o (firstn n (cs_out spec)) -> (o < w)%nat) ->
  same_block ir ir' -> block_below 65536 ir' ->
  exists c, conv_make Ri ir maximum_block_size spec = Ok c /\
    forall sessions sessions', same_sessions sessions sessions' ->
    (forall blocks, In blocks sessions' -> @blocks_of (SingleWith pow) w blocks /\ forall b, In b blocks -> block_below 65536 b) ->
    exists s outs outs', feed_sessions (conv_process Ri) conv_reset c sessions = Ok (s, outs) /\ same_sessions outs outs' /\
      Forall2 (fun ins outs => forall X, peak_below X ins ->
        routed_within w n (fun c => nth c ir' []) (cs_in spec) (cs_out spec)
          (fun o => rsum n (fun c => if (nth c (cs_out spec) 0 =? o)%nat
                                     then scheme_error delta tau (2 * 2 ^ e) (2 ^ e) n l (nth c ir' []) X else 0)) ins outs) sessions' outs'.
Proof.
  intros cosf sinf powf pow Ri Rs kt tau delta w m ir ir' M spec e l n HRs HRb Hd Hacc HRi Htau Hpow Hroots Eb Hw Hn Hsh Hm H24 El Hkt Hi Hri Ho Hro Hir Hb.
  destruct (C72_no_overflow cosf sinf powf pow Ri Rs kt tau w m ir ir' M spec e l HRs HRb HRi Htau Hpow Hroots Eb Hw Hn Hsh Hm H24 El Hkt Hi Hri Ho Hro Hir Hb)
    as (c & c' & E1 & E2 & H).
  destruct (C61_convolver_accuracy pow Rs delta tau e kt w m ir' M spec l Eb Hd Hacc Htau Hpow Hw (proj1 Hn) Hsh Hm H24 El Hkt Hi Hri Ho Hro) as (c2 & E3 & H2).
  assert (c2 = c') by congruence. subst c2.
  exists c. split; [exact E1|]. intros ss ss' Hss Hses. destruct (H ss ss' Hss Hses) as (s & outs & s' & outs' & F1 & F2 & F3).
  exists s, outs, outs'. split; [exact F1|]. split; [exact F3|].
  destruct (H2 ss' (fun bl Hbl => proj1 (Hses bl Hbl))) as (s2 & outs2 & F4 & F5).
  assert (EE : Ok (s2, outs2) = Ok (s', outs')) by (etransitivity; [symmetry; exact F4|exact F2]).
  injection EE as _ EE2. rewrite <- EE2. exact F5.
Qed.
Print Assumptions C72_ieee_accuracy.

(** With a concrete library (OverflowExample.v: correctly rounded sine, cosine and powers, and a fast transform): a response of 5000
    samples in two channels, blocks of at most 48 samples, a session of two blocks, a reset, and a session of one block. *)
Example C72_example :
  let F := SingleWith rounded_power in
  let I := IEEE cosf sinf powf in
  let ir' : audio F := [tab 5000 (fun i => INR (i mod 7)); tab 5000 (fun i => - INR i)] in
  let ir : audio I := map (map of_real) ir' in
  let spec := {| cs_in := [0; 1]%nat; cs_out := [1; 1]%nat; cs_fade := kCrossfade; cs_internal := None |} in
  let l := [{| pl_size := 1; pl_num := 17 |}; {| pl_size := 8; pl_num := 18 |}] in
  let ss' := [[[tab 40 INR; tab 40 (fun _ => 1)]; [tab 7 INR; tab 7 (fun i => - INR i)]]; [[tab 48 (fun _ => 65536); tab 48 (fun _ => 0)]]] in
  exists c, conv_make TI ir 48 spec = Ok c /\
    exists s outs outs', feed_sessions (conv_process TI) conv_reset c (map (map (map (map of_real))) ss') = Ok (s, outs) /\ same_sessions outs outs' /\
      Forall2 (fun ins outs => forall X, peak_below X ins ->
        routed_within 2 2 (fun c => nth c ir' []) (cs_in spec) (cs_out spec)
          (fun o => rsum 2 (fun c => if (nth c (cs_out spec) 0 =? o)%nat
                                     then scheme_error (transform_error tau12 6) tau12 (2 * 2 ^ 5) (2 ^ 5) 2 l (nth c ir' []) X else 0)) ins outs) ss' outs'.
Proof.
  intros F I ir' ir spec l ss'.
  assert (D : forall i, (i < 5000)%nat -> holds (INR i)).
  { intros i Hi. red. apply single_id. rewrite INR_IZR_INZ. replace (IZR (Z.of_nat i)) with (IZR (Z.of_nat i) * bpow radix2 0) by (cbn; ring).
    apply format_dyadic; [|lia]. lia. }
  assert (B : forall i, (i <= 5000)%nat -> Rabs (INR i) <= 65536).
  { intros i Hi. rewrite Rabs_pos_eq by apply pos_INR. rewrite INR_IZR_INZ. apply IZR_le. lia. }
  assert (H1 : holds 1) by (apply (D 1%nat); lia).
  assert (H16 : holds 65536).
  { red. apply single_id. replace 65536 with (IZR 1 * bpow radix2 16) by (cbn; lra). apply format_dyadic; [reflexivity|lia]. }
  assert (Hgood : forall (b : list (list R)), (forall c x, In c b -> In x c -> holds x /\ Rabs x <= 65536) -> same_block (map (map of_real) b) b /\ block_below 65536 b).
  { intros b Hb. split.
    - red. induction b as [|c b IH]; constructor; [|apply IH; intros c' x Hc; apply Hb; now right]. apply of_reals.
      intros x Hx. destruct (Hb c x (or_introl eq_refl) Hx) as [G1 G2]. split; [exact G1|]. unfold Ext.big. lra.
    - intros c x Hc Hx. now apply (Hb c x). }
  assert (Iok : forall i, (i < 5000)%nat -> holds (INR i) /\ Rabs (INR i) <= 65536) by (intros i Hi; split; [now apply D|apply B; lia]).
  assert (Iop : forall i, (i < 5000)%nat -> holds (- INR i) /\ Rabs (- INR i) <= 65536).
  { intros i Hi. split; [now apply holds_opp, D|]. rewrite Rabs_Ropp. apply B. lia. }
  destruct (Hgood ir') as [Gir Bir].
  { intros c x [<-|[<-|[]]] Hx; apply in_tab in Hx as (i & Hi & ->).
    - apply Iok. pose proof (Nat.mod_upper_bound i 7). lia.
    - apply Iop. exact Hi. }
  assert (Sh : forall c, In c ir' -> length c = 5000%nat) by (intros c [<-|[<-|[]]]; apply tab_length).
  assert (L2 : length ir' = 2%nat) by reflexivity. clearbody ir'. fold ir in Gir. clearbody ir.
  pose proof (C72_ieee_accuracy cosf sinf powf rounded_power TI (@RealFFTProof.fast_rfft F) 9 tau12 (transform_error tau12 6) 2 5000 ir ir' 48 spec 5 l) as G.
  cbv zeta in G. change (SingleWith rounded_power) with F in G. rewrite L2 in G.
  destruct G as (c & Ec & G); try lia.
  - apply T_sized.
  - apply T_bounded.
  - unfold transform_error. pose proof (growth 6 ltac:(lia)) as [G _]. change (tau12 + 12 * u24) with (SingleFFT.gfac tau12). lra.
  - apply T_accurate. lia.
  - apply TI_same.
  - apply tau12_range.
  - apply rounded_power_accurate. lia.
  - apply I_roots. lia.
  - vm_compute. reflexivity.
  - split; [exact L2|exact Sh].
  - vm_compute. reflexivity.
  - intros q [<-|[]]. cbn. lia.
  - cbn. lia.
  - cbn. intros i [<-|[<-|[]]]; lia.
  - cbn. lia.
  - cbn. intros i [<-|[<-|[]]]; lia.
  - exact Gir.
  - exact Bir.
  - exists c. split; [exact Ec|]. clear Ec Gir Bir Sh L2.
    assert (Hb : forall blocks, In blocks ss' -> forall b, In b blocks -> (exists k, @block_of F 2 k b) /\ forall c x, In c b -> In x c -> holds x /\ Rabs x <= 65536).
    { intros bl [<-|[<-|[]]] b.
      - intros [<-|[<-|[]]].
        + split; [exists 40%nat; split; [reflexivity|intros c' [<-|[<-|[]]]; apply tab_length]|].
          intros c' x [<-|[<-|[]]] Hx; apply in_tab in Hx as (i & Hi & ->); [apply Iok; lia|]. split; [exact H1|rewrite Rabs_R1; lra].
        + split; [exists 7%nat; split; [reflexivity|intros c' [<-|[<-|[]]]; apply tab_length]|].
          intros c' x [<-|[<-|[]]] Hx; apply in_tab in Hx as (i & Hi & ->); [apply Iok; lia|apply Iop; lia].
      - intros [<-|[]]. split; [exists 48%nat; split; [reflexivity|intros c' [<-|[<-|[]]]; apply tab_length]|].
          intros c' x [<-|[<-|[]]] Hx; apply in_tab in Hx as (i & Hi & ->); (split; [first [exact H16|exact holds_0]|]);
          [rewrite Rabs_pos_eq by lra; lra|rewrite Rabs_R0; lra]. }
    apply G.
    + red. clearbody ss'. clear - Hb Hgood. induction ss' as [|bl ss IH]; constructor; [|apply IH; intros; eapply Hb; [right; eassumption|assumption]].
      assert (Hbl : forall b, In b bl -> same_block (map (map of_real) b) b).
      { intros b Hin. apply Hgood. intros c x. apply (Hb bl (or_introl eq_refl) b Hin). }
      clear - Hbl. induction bl as [|b bl IH]; constructor; [apply Hbl; now left|apply IH; intros; apply Hbl; now right].
    + intros bl Hbl. split; [intros b Hin; apply (Hb bl Hbl b Hin)|]. intros b Hin. apply Hgood. intros c' x. apply (Hb bl Hbl b Hin).
Qed.

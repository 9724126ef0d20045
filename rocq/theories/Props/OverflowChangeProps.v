(** * C73: a change of response in IEEE arithmetic *)
From Coq Require Import Reals Lra Lia ZArith Floats.SpecFloat.
From Flocq Require Import Core BinarySingleNaN.
From Verif.Model Require Import Base Arith ArithReal ArithSingle ArithIEEE Juce Float32 SmoothedValue Partitioning PartitionSchemes Convolver ConvolutionEngine.
From Verif.Spec Require Import Transform Buffers Signal Routing Layout Precision PrecisionScheme Memory Engine Overflow.
From Verif.Proofs Require Import Lists Blocks Streams Param SingleProof SingleReal RealFFTProof SingleFFT Ext ExtBounds OverflowProof OverflowExample
     IEEESingle IEEESmooth EngineHet.
From Verif.Spec Require Import Rounded PrecisionEngine Together.
From Verif.Proofs Require Import EngineProof EngineRun.
From Verif.Props Require Import PartitionProps ConvolverProps WholeProps MemoryProps EngineMemoryProps TogetherProps PrecisionEngineProps OverflowProps OverflowEngineProps.
Open Scope R_scope.

Section Change.
  Context {cosf sinf : nat -> spec_float} {powf : spec_float * spec_float -> nat -> spec_float * spec_float} {pow : R * R -> nat -> R * R}.
  Notation I := (IEEE cosf sinf powf).
  Notation F := (SingleWith pow).
  Variables (Ri : rfft I) (Rs : rfft F) (kt w : nat).
  Notation Ji := (convolver_if Ri).
  Notation Js := (convolver_if Rs).

  (** the calls of C47, C56 and C65: prepare, a first response, the blocks [b0], a second response, the blocks [b1] *)
  Definition change {A : arith} (J : conv_if A) s (c0 c1 : cv J) (b0 b1 : list (audio A)) : list (op J) :=
    Prepare J s :: Others J [Deliver J {| h_id := 0; h_cv := c0 |}] :: map (Process J) b0 ++
    Others J [Deliver J {| h_id := 1; h_cv := c1 |}] :: map (Process J) b1.

  Lemma same_processes (bs : list (audio I)) (rs : list (audio F)) : @Forall2 (audio I) (audio F) same_block bs rs -> (forall b, In b rs -> block_below 65536 b) ->
    Forall2 (same_op Ri Rs kt w) (map (Process Ji) bs) (map (Process Js) rs).
  Proof.
    induction 1 as [|x x' u u' Hx _ IH]; intros HX; cbn [map]; constructor.
    - constructor; [exact Hx|]. apply HX. now left.
    - apply IH. intros y Hy. apply HX. now right.
  Qed.
  Lemma same_change s c0 c0' c1 c1' (b0 b1 : list (audio I)) (r0 r1 : list (audio F)) :
    (ps_rate_num s <= 1000000 * ps_rate_den s)%Z -> made_alike Ri Rs kt w c0 c0' -> made_alike Ri Rs kt w c1 c1' ->
    @Forall2 (audio I) (audio F) same_block b0 r0 -> @Forall2 (audio I) (audio F) same_block b1 r1 -> (forall b, In b (r0 ++ r1) -> block_below 65536 b) ->
    Forall2 (same_op Ri Rs kt w) (change Ji s c0 c1 b0 b1) (change Js s c0' c1' r0 r1).
  Proof.
    intros Hs A0 A1 B0 B1 HX. unfold change. constructor; [now constructor|]. constructor; [constructor; constructor; [now constructor|constructor]|].
    apply Forall2_app; [apply same_processes; auto; intros b Hb; apply HX, in_app_iff; now left|].
    constructor; [constructor; constructor; [now constructor|constructor]|]. apply same_processes; auto. intros b Hb. apply HX, in_app_iff. now right.
  Qed.
  Lemma legal_change s (c0 c1 : cv Js) (r0 r1 : list (audio F)) : spec_ok w s -> fits w (ps_max_block s) r0 -> fits w (ps_max_block s) r1 ->
    legal Js w (fun _ => True) None (change Js s c0 c1 r0 r1).
  Proof.
    intros Hs H0 H1. unfold change. cbn [legal]. split; [exact Hs|]. split; [intros h _; exact Logic.I|].
    assert (G : forall r tl, fits w (ps_max_block s) r -> legal Js w (fun _ => True) (Some (ps_max_block s)) tl ->
      legal Js w (fun _ => True) (Some (ps_max_block s)) (map (Process Js) r ++ tl)).
    { clear. induction r as [|x r IH]; intros tl Hr Ht; cbn [map app legal]; [exact Ht|]. split.
      - destruct (Hr x (or_introl eq_refl)) as (k & K1 & K2). eauto.
      - apply IH; auto. intros y Hy. apply Hr. now right. }
    apply G; auto. cbn [legal]. split; [intros h _; exact Logic.I|].
    rewrite <- (app_nil_r (map _ _)). apply G; auto. exact Logic.I.
  Qed.
End Change.

(** With C65: [b0] and [b1] are the blocks in floats, [r0] and [r1] the same in real numbers, [c0], [c1] and [r_c0], [r_c1] the
    convolvers with the two responses.  Every number the IEEE engine puts out is finite and within the error of C65 of the exact
    cross-fade. *)
Theorem C73_crossfade : forall cosf sinf powf pow (Ri : rfft (IEEE cosf sinf powf)) (Rs : rfft (SingleWith pow)) kt tau (delta : R) w,
  rfft_sized Rs -> rfft_bounded (@rfft_fwd _ Rs) (@rfft_inv _ Rs) ->
  @same_transform (IEEE cosf sinf powf) number (rfft_fwd Ri) (rfft_inv Ri) (@rfft_fwd _ Rs) (@rfft_inv _ Rs) ->
  0 <= tau <= / 4 -> pow_accurate pow (@cis (SingleWith pow)) (@cis_neg (SingleWith pow)) kt tau ->
  @same_roots (IEEE cosf sinf powf) number kt pow -> (0 < w)%nat ->
  let Ji := convolver_if Ri in
  forall s b, spec_ok w s -> engine_bounds s = Ok b -> (ps_rate_num s <= 1000000 * ps_rate_den s)%Z ->
  forall m0 (ir0 : audio Rarith) sp0 c0 r_c0, made_alike Ri Rs kt w c0 r_c0 ->
    @well_made (SingleWith pow) Rs w m0 ir0 (ps_max_block s) sp0 r_c0 -> precise Rs delta tau m0 (ps_max_block s) sp0 ->
  forall m1 (ir1 : audio Rarith) sp1 c1 r_c1, made_alike Ri Rs kt w c1 r_c1 ->
    @well_made (SingleWith pow) Rs w m1 ir1 (ps_max_block s) sp1 r_c1 -> precise Rs delta tau m1 (ps_max_block s) sp1 ->
  forall n, fade_of b (Z.of_nat m1) (cs_fade sp1) = Ok (kCrossfade, Z.of_nat n) ->
  forall (b0 b1 : list (audio (IEEE cosf sinf powf))) (r0 r1 : list (audio (SingleWith pow))),
  @Forall2 (audio (IEEE cosf sinf powf)) (audio (SingleWith pow)) same_block b0 r0 ->
  @Forall2 (audio (IEEE cosf sinf powf)) (audio (SingleWith pow)) same_block b1 r1 -> (forall b, In b (r0 ++ r1) -> block_below 65536 b) ->
  fits w (ps_max_block s) r0 -> fits w (ps_max_block s) r1 -> r0 <> [] ->
  exists e outs0 outs1 (v0 v1 : list (audio (SingleWith pow))),
    eng_run Ji (eng_new Ji []) (change Ji s (c0 : cv Ji) (c1 : cv Ji) b0 b1) = Ok (e, outs0 ++ outs1) /\
    length outs0 = length b0 /\ length outs1 = length b1 /\
    @Forall2 (audio (IEEE cosf sinf powf)) (audio (SingleWith pow)) same_block outs0 v0 /\
    @Forall2 (audio (IEEE cosf sinf powf)) (audio (SingleWith pow)) same_block outs1 v1 /\
    let first (bs : list (audio Rarith)) o t := nth t (@mixed Rarith (length ir0) (fun c => nth c ir0 []) (cs_in sp0) (cs_out sp0) bs o) 0 in
    let second (bs : list (audio Rarith)) o t := nth t (@mixed Rarith (length ir1) (fun c => nth c ir1 []) (cs_in sp1) (cs_out sp1) bs o) 0 in
    forall X, peak_below X (r0 ++ r1) -> forall o, (o < w)%nat ->
      let E0 := convolver_error delta tau m0 (ps_max_block s) ir0 sp0 X o in
      let E1 := convolver_error delta tau m1 (ps_max_block s) ir1 sp1 X o in
      (forall t, (t < total r0)%nat -> Rabs (nth t (channel o v0) 0 - first r0 o t) <= E0) /\
      (forall t, (t < total r1)%nat ->
        let old := first (r0 ++ r1) o (total r0 + t)%nat in let new := second r1 o t in
        Rabs (nth t (channel o v1) 0 - mix (share n t) old new)
        <= mix (share n t) E0 E1 + fade_error n t (Rabs old + E0) (Rabs new + E1)).
Proof.
  intros cosf sinf powf pow Ri Rs kt tau delta w HRs HRb HRi Htau Hpow Hroots Hw Ji s b Hs Eb Hrate m0 ir0 sp0 c0 rc0 A0 W0 P0 m1 ir1 sp1 c1 rc1 A1 W1 P1 n Hn
         b0 b1 r0 r1 B0 B1 HX Hf0 Hf1 Hne.
  assert (H22 : (n <= 2 ^ 22)%nat).
  { destruct Hs as (_ & _ & Q1 & Q2 & _). pose proof (short_fade b _ _ _ _ (short_spec s b Q1 Q2 Hrate Eb) Hn) as Q.
    unfold fade_len in Q. apply Nat2Z.inj_le. rewrite Nat2Z.inj_pow. change (Z.of_nat 2 ^ Z.of_nat 22)%Z with 4194304%Z. lia. }
  assert (HN : no_loads (eng_new (convolver_if Rs) [])) by (intros l []).
  destruct (C65_crossfade pow Rs HRs delta tau w s b Hs Hw Eb m0 ir0 sp0 rc0 W0 P0 m1 ir1 sp1 rc1 W1 P1 n Hn H22 [] HN r0 r1 Hf0 Hf1 Hne)
    as (e' & v0 & v1 & E' & L0 & L1 & HE).
  pose proof (same_change Ri Rs kt w s c0 rc0 c1 rc1 b0 b1 r0 r1 Hrate A0 A1 B0 B1 HX) as HC.
  pose proof (legal_change Rs w s rc0 rc1 r0 r1 Hs Hf0 Hf1) as HG.
  destruct (C73_engine_no_overflow cosf sinf powf pow Ri Rs kt tau w HRs HRb HRi Htau Hpow Hroots Hw [] [] _ _ (Forall2_nil _) HC HG)
    as (e & outs & e2 & outs' & R1 & R2 & R3 & _).
  assert (EE : Ok (e2, outs') = Ok (e', v0 ++ v1)) by (etransitivity; [symmetry; exact R2|exact E']). injection EE as -> ->.
  apply Forall2_app_inv_r in R3 as (x & y & Hx & Hy & ->).
  exists e, x, y, v0, v1. split; [exact R1|].
  split; [etransitivity; [exact (F2_length Hx)|]; etransitivity; [exact L0|symmetry; exact (F2_length B0)]|].
  split; [etransitivity; [exact (F2_length Hy)|]; etransitivity; [exact L1|symmetry; exact (F2_length B1)]|].
  split; [exact Hx|]. split; [exact Hy|]. exact HE.
Qed.
Print Assumptions C73_crossfade.

(** The same for an in/out fade; [b1] are the blocks until the first half ends. *)
Theorem C73_in_out : forall cosf sinf powf pow (Ri : rfft (IEEE cosf sinf powf)) (Rs : rfft (SingleWith pow)) kt tau (delta : R) w,
  rfft_sized Rs -> rfft_bounded (@rfft_fwd _ Rs) (@rfft_inv _ Rs) ->
  @same_transform (IEEE cosf sinf powf) number (rfft_fwd Ri) (rfft_inv Ri) (@rfft_fwd _ Rs) (@rfft_inv _ Rs) ->
  0 <= tau <= / 4 -> pow_accurate pow (@cis (SingleWith pow)) (@cis_neg (SingleWith pow)) kt tau ->
  @same_roots (IEEE cosf sinf powf) number kt pow -> (0 < w)%nat ->
  let Ji := convolver_if Ri in
  forall s b, spec_ok w s -> engine_bounds s = Ok b -> (ps_rate_num s <= 1000000 * ps_rate_den s)%Z ->
  forall m0 (ir0 : audio Rarith) sp0 c0 r_c0, made_alike Ri Rs kt w c0 r_c0 ->
    @well_made (SingleWith pow) Rs w m0 ir0 (ps_max_block s) sp0 r_c0 -> precise Rs delta tau m0 (ps_max_block s) sp0 ->
  forall m1 (ir1 : audio Rarith) sp1 c1 r_c1, made_alike Ri Rs kt w c1 r_c1 ->
    @well_made (SingleWith pow) Rs w m1 ir1 (ps_max_block s) sp1 r_c1 -> precise Rs delta tau m1 (ps_max_block s) sp1 ->
  forall n, fade_of b (Z.of_nat m1) (cs_fade sp1) = Ok (kInOut, Z.of_nat n) ->
  forall (b0 b1 b2 : list (audio (IEEE cosf sinf powf))) (r0 r1 r2 : list (audio (SingleWith pow))),
  @Forall2 (audio (IEEE cosf sinf powf)) (audio (SingleWith pow)) same_block b0 r0 ->
  @Forall2 (audio (IEEE cosf sinf powf)) (audio (SingleWith pow)) same_block b1 r1 ->
  @Forall2 (audio (IEEE cosf sinf powf)) (audio (SingleWith pow)) same_block b2 r2 -> (forall b, In b (r0 ++ r1 ++ r2) -> block_below 65536 b) ->
  fits w (ps_max_block s) r0 -> fits w (ps_max_block s) r1 -> fits w (ps_max_block s) r2 -> r0 <> [] ->
  (total (removelast r1) < n)%nat -> (r2 <> [] -> (n <= total r1)%nat) ->
  exists e outs (v0 v1 v2 : list (audio (SingleWith pow))),
    eng_run Ji (eng_new Ji []) (change Ji s (c0 : cv Ji) (c1 : cv Ji) b0 (b1 ++ b2)) = Ok (e, outs) /\
    @Forall2 (audio (IEEE cosf sinf powf)) (audio (SingleWith pow)) same_block outs (v0 ++ v1 ++ v2) /\
    let first (bs : list (audio Rarith)) o t := nth t (@mixed Rarith (length ir0) (fun c => nth c ir0 []) (cs_in sp0) (cs_out sp0) bs o) 0 in
    let second (bs : list (audio Rarith)) o t := nth t (@mixed Rarith (length ir1) (fun c => nth c ir1 []) (cs_in sp1) (cs_out sp1) bs o) 0 in
    forall X, peak_below X (r0 ++ r1 ++ r2) -> forall o, (o < w)%nat ->
      let E0 := convolver_error delta tau m0 (ps_max_block s) ir0 sp0 X o in
      let E1 := convolver_error delta tau m1 (ps_max_block s) ir1 sp1 X o in
      (forall t, (t < total r0)%nat -> Rabs (nth t (channel o v0) 0 - first r0 o t) <= E0) /\
      (forall t, (t < total r1)%nat -> let old := first (r0 ++ r1) o (total r0 + t)%nat in
        Rabs (nth t (channel o v1) 0 - old * (1 - share n t)) <= (1 - share n t) * E0 + fade_error n t (Rabs old + E0) 0) /\
      (forall t, (t < total r2)%nat -> let new := second r2 o t in
        Rabs (nth t (channel o v2) 0 - new * share n t) <= share n t * E1 + fade_error n t 0 (Rabs new + E1)).
Proof.
  intros cosf sinf powf pow Ri Rs kt tau delta w HRs HRb HRi Htau Hpow Hroots Hw Ji s b Hs Eb Hrate m0 ir0 sp0 c0 rc0 A0 W0 P0 m1 ir1 sp1 c1 rc1 A1 W1 P1 n Hn
         b0 b1 b2 r0 r1 r2 B0 B1 B2 HX Hf0 Hf1 Hf2 Hne HT1 HT2.
  assert (H22 : (n <= 2 ^ 22)%nat).
  { destruct Hs as (_ & _ & Q1 & Q2 & _). pose proof (short_fade b _ _ _ _ (short_spec s b Q1 Q2 Hrate Eb) Hn) as Q.
    unfold fade_len in Q. apply Nat2Z.inj_le. rewrite Nat2Z.inj_pow. change (Z.of_nat 2 ^ Z.of_nat 22)%Z with 4194304%Z. lia. }
  assert (HN : no_loads (eng_new (convolver_if Rs) [])) by (intros l []).
  destruct (C65_in_out pow Rs HRs delta tau w s b Hs Hw Eb m0 ir0 sp0 rc0 W0 P0 m1 ir1 sp1 rc1 W1 P1 n Hn H22 [] HN r0 r1 r2 Hf0 Hf1 Hf2 Hne HT1 HT2)
    as (e' & v0 & v1 & v2 & E' & HE).
  assert (HF12 : fits w (ps_max_block s) (r1 ++ r2)) by (intros x Hx; apply in_app_iff in Hx as [Hx|Hx]; auto).
  pose proof (same_change Ri Rs kt w s c0 rc0 c1 rc1 b0 (b1 ++ b2) r0 (r1 ++ r2) Hrate A0 A1 B0 (Forall2_app B1 B2) HX) as HC.
  pose proof (legal_change Rs w s rc0 rc1 r0 (r1 ++ r2) Hs Hf0 HF12) as HG.
  destruct (C73_engine_no_overflow cosf sinf powf pow Ri Rs kt tau w HRs HRb HRi Htau Hpow Hroots Hw [] [] _ _ (Forall2_nil _) HC HG)
    as (e & outs & e2 & outs' & R1 & R2 & R3 & _).
  assert (EE : Ok (e2, outs') = Ok (e', v0 ++ v1 ++ v2)) by (etransitivity; [symmetry; exact R2|exact E']). injection EE as -> ->.
  exists e, outs, v0, v1, v2. split; [exact R1|]. split; [exact R3|]. exact HE.
Qed.


(** The library of C73_last_response_example: from a response of 5000 samples to another by a cross-fade over 4410 samples. *)
Example C73_crossfade_example :
  let F := SingleWith rounded_power in
  let I := IEEE OverflowExample.cosf OverflowExample.sinf OverflowExample.powf in
  let Rs := @RealFFTProof.fast_rfft F in
  let Ji := convolver_if TI in
  let ir0 : audio F := [tab 5000 (fun i => INR (i mod 7)); tab 5000 (fun i => - INR i)] in
  let ir1 : audio F := [tab 5000 (fun i => INR i); tab 5000 (fun i => INR (i mod 3))] in
  exists c0 c1, conv_make TI (floats ir0) 64 (stereo kCrossfade) = Ok c0 /\ conv_make TI (floats ir1) 64 (stereo kCrossfade) = Ok c1 /\
  forall (b0 b1 : list (audio I)) (r0 r1 : list (audio F)),
  @Forall2 (audio I) (audio F) same_block b0 r0 -> @Forall2 (audio I) (audio F) same_block b1 r1 -> (forall b, In b (r0 ++ r1) -> block_below 65536 b) ->
  fits 2 64 r0 -> fits 2 64 r1 -> r0 <> [] ->
  exists e outs0 outs1 (v0 v1 : list (audio F)),
    eng_run Ji (eng_new Ji []) (change Ji spec44 (c0 : cv Ji) (c1 : cv Ji) b0 b1) = Ok (e, outs0 ++ outs1) /\
    @Forall2 (audio I) (audio F) same_block outs0 v0 /\ @Forall2 (audio I) (audio F) same_block outs1 v1 /\
    forall X, peak_below X (r0 ++ r1) -> forall o t, (o < 2)%nat -> (t < total r1)%nat ->
      let E0 := convolver_error (transform_error tau12 7) tau12 5000 64 ir0 (stereo kCrossfade) X o in
      let E1 := convolver_error (transform_error tau12 7) tau12 5000 64 ir1 (stereo kCrossfade) X o in
      let old := nth (total r0 + t) (@mixed Rarith (length ir0) (fun c => nth c ir0 []) [0; 1]%nat [1; 0]%nat (r0 ++ r1) o) 0 in
      let new := nth t (@mixed Rarith (length ir1) (fun c => nth c ir1 []) [0; 1]%nat [1; 0]%nat r1 o) 0 in
      Rabs (nth t (channel o v1) 0 - mix (share (Z.to_nat 4410) t) old new)
        <= mix (share (Z.to_nat 4410) t) E0 E1 + fade_error (Z.to_nat 4410) t (Rabs old + E0) (Rabs new + E1).
Proof.
  intros F I Rs Ji ir0 ir1.
  assert (M : forall ir : audio F, length ir = 2%nat -> (forall c, In c ir -> length c = 5000%nat) -> (forall c x, In c ir -> In x c -> holds x /\ Rabs x <= 65536) ->
    exists c c', conv_make TI (floats ir) 64 (stereo kCrossfade) = Ok c /\ well_made Rs 2 5000 ir 64 (stereo kCrossfade) c' /\ made_alike TI Rs 9 2 c c').
  { intros ir L H1 H2. apply (floats_make 64 6 [{| pl_size := 1; pl_num := 9 |}; {| pl_size := 4; pl_num := 18 |}]).
    - vm_compute. reflexivity.
    - lia.
    - vm_compute. reflexivity.
    - intros q [<-|[]]. cbn. lia.
    - now right.
    - exact H1.
    - exact H2.
    - reflexivity.
    - exact (Nat.eq_le_incl _ _ L).
    - intros i [<-|[<-|[]]]; lia.
    - exact (Nat.eq_le_incl _ _ L).
    - intros i [<-|[<-|[]]]; lia. }
  destruct (M ir0) as (c0 & c0' & Q0 & W0 & A0).
  { reflexivity. }
  { intros c [<-|[<-|[]]]; apply tab_length. }
  { intros c x [<-|[<-|[]]] Hx; apply in_tab in Hx as (i & Hi & ->).
    - apply ints_hold. pose proof (Nat.mod_upper_bound i 7). lia.
    - now apply opp_hold. }
  destruct (M ir1) as (c1 & c1' & Q1 & W1 & A1).
  { reflexivity. }
  { intros c [<-|[<-|[]]]; apply tab_length. }
  { intros c x [<-|[<-|[]]] Hx; apply in_tab in Hx as (i & Hi & ->).
    - apply ints_hold. lia.
    - apply ints_hold. pose proof (Nat.mod_upper_bound i 3). lia. }
  clear M. clearbody ir0 ir1. exists c0, c1. split; [exact Q0|]. split; [exact Q1|]. intros b0 b1 r0 r1 B0 B1 HX Hf0 Hf1 Hne.
  assert (HS : spec_ok 2 spec44) by (unfold spec_ok, rate_ok; cbn; lia).
  assert (HB : engine_bounds spec44 = Ok bounds44) by (vm_compute; reflexivity).
  assert (HN : fade_of bounds44 (Z.of_nat 5000) kCrossfade = Ok (kCrossfade, Z.of_nat (Z.to_nat 4410))) by (rewrite Z2Nat.id by lia; vm_compute; reflexivity).
  pose proof (C73_crossfade OverflowExample.cosf OverflowExample.sinf OverflowExample.powf rounded_power TI Rs 9 tau12 (transform_error tau12 7) 2
    T_sized T_bounded TI_same tau12_range (rounded_power_accurate 9 ltac:(lia)) (I_roots 9 ltac:(lia)) ltac:(lia) spec44 bounds44 HS HB ltac:(cbn; lia)
    5000%nat ir0 (stereo kCrossfade) c0 c0' A0 W0 (precise64 kCrossfade) 5000%nat ir1 (stereo kCrossfade) c1 c1' A1 W1 (precise64 kCrossfade)
    (Z.to_nat 4410) HN b0 b1 r0 r1 B0 B1 HX Hf0 Hf1 Hne) as (e & outs0 & outs1 & v0 & v1 & E & _ & _ & S0 & S1 & G).
  exists e, outs0, outs1, v0, v1. split; [exact E|]. split; [exact S0|]. split; [exact S1|].
  intros X HP o t Ho Ht. exact (proj2 (G X HP o Ho) t Ht).
Qed.
Print Assumptions C73_in_out.

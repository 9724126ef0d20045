(** * C62, C63: robustness and finite memory, whatever the arithmetic *)
From Coq Require Import ZArith Floats.SpecFloat.
From Verif.Model Require Import Base Arith ArithIEEE Juce Partitioning PartitionSchemes UniformPartitionedConvolver TimeDistributedNUPC
     Convolver ConvolutionEngine.
From Verif.Spec Require Import Transform Signal Routing Engine Memory.
From Verif.Proofs Require Import Lists Butterfly Blocks Streams RealFFTProof Stamp Param MemoryProof.
From Verif.Props Require Import PartitionProps ConvolverProps WholeProps.

(** ** C62 *)
(** Nothing is assumed of the arithmetic: samples may be NaN or infinite, sums may overflow, the transform may compute
    anything.  A convolver is constructed from any response of an admissible size ... *)
Theorem C62_construction : forall (A : arith) (R : rfft A), rfft_sized R -> forall w m (ir : audio A) maximum_block_size spec,
  let n := length ir in
  0 < w -> 0 < n -> block_of n m ir -> 0 < m -> (Z.of_nat m <= 2 ^ 24)%Z ->
  (requested (Z.of_nat maximum_block_size) (cs_internal spec) <= 2 ^ 30)%Z ->
  n <= length (cs_in spec) -> (forall i, In i (firstn n (cs_in spec)) -> i < w) ->
  n <= length (cs_out spec) -> (forall o, In o (firstn n (cs_out spec)) -> o < w) ->
  exists c, well_made R w m ir maximum_block_size spec c.
Proof.
  intros A R HR w m ir M spec n H1 H2 H3 H4 H5 H6 H7 H8 H9 H10.
  destruct (blind_make R HR w m ir M spec) as (c & Ec & _); auto. exists c. unfold well_made. repeat (split; auto).
Qed.

(** ... and no call of process or reset fails: no access out of range, no undefined operation, no endless loop; every block
    comes back in its own shape. *)
Theorem C62_never_fails : forall (A : arith) (R : rfft A), rfft_sized R -> forall w m ir maximum_block_size spec c,
  well_made R w m ir maximum_block_size spec c ->
  forall sessions, (forall blocks, In blocks sessions -> blocks_of w blocks) ->
  exists c' outs, feed_sessions (conv_process R) conv_reset c sessions = Ok (c', outs) /\
    Forall2 (Forall2 (fun b o => exists k, block_of w k b /\ block_of w k o)) sessions outs.
Proof.
  intros A R HR w m ir M spec c (H1 & H2 & H3 & H4 & H5 & H6 & H7 & H8 & H9 & H10 & E) sessions Hs.
  destruct (blind_make R HR w m ir M spec) as (c' & Ec & H); auto. rewrite E in Ec. injection Ec as <-. auto.
Qed.

Theorem C62_convolvers_are_accepting : forall (A : arith) (R : rfft A), rfft_sized R -> forall w,
  accepting (convolver_if R) w (@used A R w).
Proof.
  intros A R HR w. split.
  - intros c m b (m0 & ir & M & spec & new & hist & cur & s1 & o1 & o2 & HW & Hh & Hc & E1 & E2) Hb.
    assert (Hcb : blocks_of w (cur ++ [b])).
    { intros x Hx. apply in_app_iff in Hx as [Hx|[<-|[]]]; [now apply Hc|now exists m]. }
    destruct (C62_never_fails A R HR w m0 ir M spec new HW (hist ++ [cur ++ [b]])) as (s' & outs & E & HF).
    { intros x Hx. apply in_app_iff in Hx as [Hx|[<-|[]]]; auto. }
    rewrite feed_sessions_app, E1 in E. cbn [bind feed_sessions] in E.
    destruct (feed (conv_process R) s1 (cur ++ [b])) as [[s2 o3]| |] eqn:E3; cbn [bind] in E; try discriminate.
    cbn [cv_process convolver_if].
    assert (EX : exists b', conv_process R c b = Ok (s2, b') /\ o3 = o2 ++ [b']).
    { revert E2 E3. clear. revert s1 o2 o3. induction cur as [|x cur IH]; intros s1 o2 o3 E2 E3; cbn [feed app] in *.
      - injection E2 as <- <-. destruct (conv_process R s1 b) as [[s3 o4]| |]; cbn [bind] in E3; try discriminate.
        injection E3 as <- <-. exists o4. split; auto.
      - destruct (conv_process R s1 x) as [[s3 o4]| |]; cbn [bind] in *; try discriminate.
        destruct (feed (conv_process R) s3 cur) as [[s4 o5]| |] eqn:F; cbn [bind] in *; try discriminate.
        destruct (feed (conv_process R) s3 (cur ++ [b])) as [[s5 o6]| |] eqn:F'; cbn [bind] in *; try discriminate.
        injection E2 as <- <-. injection E3 as <- <-. destruct (IH _ _ _ F F') as (b' & G1 & ->). exists b'. split; auto. }
    destruct EX as (b' & EP & ->). exists s2, b'. split; auto. split.
    + exists m0, ir, M, spec, new, hist, (cur ++ [b]), s1, o1, (o2 ++ [b']). auto 6.
    + injection E as _ <-. apply Forall2_app_inv_l in HF as (p & q & HFp & HFq & Epq).
      inversion HFq as [|? y ? q1 Hy HFq1]; subst. inversion HFq1; subst.
      apply app_inj_tail in Epq as [_ <-]. apply Forall2_app_inv_l in Hy as (p1 & q1 & _ & Hq & Epq).
      inversion Hq as [|? y ? q2 (k & K1 & K2) Hn]; subst. inversion Hn; subst. apply app_inj_tail in Epq as [_ <-].
      assert (k = m \/ w = 0) as [-> | ->].
      { destruct Hb as [Hb1 Hb2], K1 as [K3 K4]. destruct b as [|x b]; [right; cbn in *; lia|]. left.
        rewrite <- (K4 x), <- (Hb2 x); auto; now left. }
      * exact K2.
      * destruct K2 as [K2 _]. destruct b'; [split; auto; intros ? []|discriminate].
  - intros c (m0 & ir & M & spec & new & hist & cur & s1 & o1 & o2 & HW & Hh & Hc & E1 & E2).
    exists m0, ir, M, spec, new, (hist ++ [cur]), [], (conv_reset c), (o1 ++ [o2]), []. split; auto. split.
    { intros x Hx. apply in_app_iff in Hx as [Hx|[<-|[]]]; auto. }
    split; [intros ? []|]. split; [|reflexivity]. rewrite feed_sessions_app, E1. cbn [bind feed_sessions]. rewrite E2. reflexivity.
Qed.

(** The whole engine with the real convolvers: whatever the legal calls, the samples, the schedule of the other threads and the
    arithmetic, no call fails. *)
Theorem C62_engine_never_fails : forall (A : arith) (R : rfft A), rfft_sized R -> forall w, 0 < w ->
  let I := convolver_if R in
  forall env l, Forall (delivers_ok I (@used A R w)) env -> legal I w (@used A R w) None l ->
  exists e outs, eng_run I (eng_new I env) l = Ok (e, outs) /\
    Forall2 (fun b o => exists m, block_of w m b /\ block_of w m o) (blocks_in I l) outs.
Proof.
  intros A R HR w Hw I env l He Hl. apply (C46_never_fails A I w (@used A R w)); auto. now apply C62_convolvers_are_accepting.
Qed.
Print Assumptions C62_construction.
Print Assumptions C62_never_fails.
Print Assumptions C62_convolvers_are_accepting.
Print Assumptions C62_engine_never_fails.

(** ** C63 *)
Lemma F3_last {X Y Z} (P : X -> Y -> Z -> Prop) l l' l'' x y z : Forall3 P (l ++ [x]) (l' ++ [y]) (l'' ++ [z]) -> P x y z.
Proof.
  intros H. destruct (F3_length _ _ _ _ H) as [E1 E2]. rewrite !app_length in E1, E2. cbn in E1, E2.
  pose proof (F3_nth _ _ _ _ (length l) x y z H) as G. rewrite app_length in G. cbn in G. specialize (G ltac:(lia)).
  rewrite nth_middle in G. replace (length l) with (length l') in G at 1 by lia. rewrite nth_middle in G.
  replace (length l) with (length l'') in G by lia. now rewrite nth_middle in G.
Qed.
Section Runs.
  Context {A : arith} (R : rfft A) (HR : rfft_sized R).
  Variables (w m : nat) (ir : audio A) (M : nat) (spec : conv_spec) (c : convolver A) (b : Z).
  Hypothesis HW : well_made R w m ir M spec c.
  Hypothesis Eb : conv_block_size (Z.of_nat M) (cs_internal spec) = Ok b.
  Notation D := (settling m (Z.to_nat b)).

  Lemma two_runs T hist hist' cur cur' :
    (forall blocks, In blocks hist -> blocks_of w blocks) -> blocks_of w cur ->
    Forall2 same_shapes hist hist' -> same_shapes cur cur' -> agree_from w T cur cur' ->
    exists s past s' past' e outs e' outs',
      feed_sessions (conv_process R) conv_reset c hist = Ok (s, past) /\ feed (conv_process R) s cur = Ok (e, outs) /\
      feed_sessions (conv_process R) conv_reset c hist' = Ok (s', past') /\ feed (conv_process R) s' cur' = Ok (e', outs') /\
      same_shapes outs outs' /\ agree_from w (if T =? 0 then 0 else T + D) outs outs'.
  Proof.
    intros Hh Hc Sh Sc Ag. destruct HW as (H1 & H2 & H3 & H4 & H5 & H6 & H7 & H8 & H9 & H10 & E).
    destruct (stamp_run R HR w m (no_stamps ir) M spec b) as (ct & Ect & Hrun);
      try (unfold no_stamps; rewrite ?map_length; assumption); auto.
    { unfold no_stamps at 1. rewrite map_length. now apply no_stamps_block. }
    set (inst := map (map old_block) hist ++ [stamp_blocks 0 cur]).
    destruct (Hrun inst) as (st & outst & Et & HF).
    { intros bs Hbs. apply in_app_iff in Hbs as [Hbs|[<-|[]]].
      - apply in_map_iff in Hbs as (bs' & <- & Hin). intros b0 Hb0. apply in_map_iff in Hb0 as (b1 & <- & Hin1).
        destruct (Hh bs' Hin b1 Hin1) as (k & Hk). exists k. now apply old_block_of.
      - now apply stamp_blocks_of. }
    destruct (three_runs R HR T ir M spec c ct (hist ++ [cur]) (hist' ++ [cur']) inst st outst E Ect) as (s2 & outs & s2' & outs' & E1 & E2 & HG); auto.
    { apply F3_app.
      - clear - Sh. induction Sh; cbn [map]; constructor; auto. now apply old_related.
      - constructor; [|constructor]. apply (stamps_related T w); auto. intros ch Hch i Hi. cbn [Nat.add] in Hi.
        specialize (Ag ch Hch). assert (EN : nth (i - T) (skipn T (channel ch cur)) s0 = nth (i - T) (skipn T (channel ch cur')) s0) by (now rewrite Ag).
        rewrite !nth_skipn' in EN. now replace (T + (i - T)) with i in EN by lia. }
    rewrite feed_sessions_app in E1, E2.
    destruct (feed_sessions (conv_process R) conv_reset c hist) as [[s past]| |] eqn:F1; cbn [bind] in E1; try discriminate.
    destruct (feed_sessions (conv_process R) conv_reset c hist') as [[s' past']| |] eqn:F2; cbn [bind] in E2; try discriminate.
    cbn [feed_sessions] in E1, E2.
    destruct (feed (conv_process R) s cur) as [[e o]| |] eqn:F3; cbn [bind] in E1; try discriminate.
    destruct (feed (conv_process R) s' cur') as [[e' o']| |] eqn:F4; cbn [bind] in E2; try discriminate.
    injection E1 as <- <-. injection E2 as <- <-.
    exists s, past, s', past', e, o, e', o'. repeat (split; [assumption || reflexivity|]).
    (* the last session *)
    unfold inst in HF. apply Forall2_app_inv_l in HF as (pt & qt & HFp & HFq & Eq).
    inversion HFq as [|? ot ? q1 Ho HFq1]; subst. inversion HFq1; subst. clear HFq HFq1.
    assert (HL : Forall3 (Forall3 (Forall3 (G T))) o o' ot).
    { exact (F3_last _ _ _ _ _ _ _ HG). }
    split.
    - clear - HL. induction HL as [|x y z l l' l'' H _ IH]; constructor; auto. red.
      induction H as [|x y z l0 l0' l0'' H _ IH']; cbn [map]; auto. f_equal; auto. now apply F3_length in H.
    - intros ch Hch. pose proof (F3_channel (G T) ch o o' ot HL) as HCh. change (concat (map (fun b0 => nth ch b0 []) ot)) with (channel ch ot) in HCh.
      destruct Ho as (L1 & _ & Ho). destruct (Ho ch Hch) as [L2 Hst]. specialize (Hst (stamps_stamped w cur H1 Hc)).
      destruct (F3_length _ _ _ _ HCh) as [L3 L4].
      set (T' := if T =? 0 then 0 else T + D).
      apply (nth_ext _ _ s0 s0); [rewrite !skipn_length; lia|]. intros i Hi. rewrite skipn_length in Hi. rewrite !nth_skipn'.
      apply (F3_nth (G T) (channel ch o) (channel ch o') (channel ch ot) (T' + i) s0 s0 s0 HCh); [lia|].
      eapply since_mono; [|apply Hst; lia]. unfold T'. destruct (Nat.eqb_spec T 0); lia.
  Qed.
End Runs.

(** Two runs of a convolver, with blocks of the same sizes but different samples: from the moment the inputs agree, and
    [settling] samples later (right away if they agree from the last reset on), the outputs are the same, bit for bit. *)
Theorem C63_finite_memory : forall (A : arith) (R : rfft A), rfft_sized R -> forall w m ir maximum_block_size spec c B,
  well_made R w m ir maximum_block_size spec c ->
  conv_block_size (Z.of_nat maximum_block_size) (cs_internal spec) = Ok B ->
  forall T history history' current current',
  (forall blocks, In blocks history -> blocks_of w blocks) -> blocks_of w current ->
  Forall2 same_shapes history history' -> same_shapes current current' -> agree_from w T current current' ->
  exists s past s' past' e outs e' outs',
    feed_sessions (conv_process R) conv_reset c history = Ok (s, past) /\ feed (conv_process R) s current = Ok (e, outs) /\
    feed_sessions (conv_process R) conv_reset c history' = Ok (s', past') /\ feed (conv_process R) s' current' = Ok (e', outs') /\
    same_shapes outs outs' /\
    agree_from w (if T =? 0 then 0 else T + settling m (Z.to_nat B)) outs outs'.
Proof.
  intros A R HR w m ir M spec c b HW Eb T hist hist' cur cur' Hh Hc Sh Sc Ag.
  exact (two_runs R HR w m ir M spec c b HW Eb T hist hist' cur cur' Hh Hc Sh Sc Ag).
Qed.
Print Assumptions C63_finite_memory.

(** ** Examples: C++ [float]s with NaN and infinities *)
Lemma fast_rfft_sized (A : arith) : rfft_sized (@fast_rfft A).
Proof.
  assert (F : forall k d, length (@rfft_fwd A fast_rfft k d) = 2 * 2 ^ k) by (intros; cbn [rfft_fwd fast_rfft]; now rewrite flat_length, tab_length).
  assert (J : forall k d, length (@rfft_inv A fast_rfft k d) = 2 * 2 ^ k).
  { intros. cbn [rfft_inv fast_rfft ref_rfft]. rewrite app_length, map_length, repeat_length.
    transitivity (2 ^ k + 2 ^ k); [|lia]. f_equal. apply idif_length, tab_length. }
  split; intros; rewrite ?F, ?J; auto.
Qed.
Section IEEEExamples.
  Variables (cosf sinf : nat -> spec_float) (powf : spec_float * spec_float -> nat -> spec_float * spec_float).
  Notation F := (IEEE cosf sinf powf).
  Definition spec2 := {| cs_in := [0; 1]; cs_out := [1; 0]; cs_fade := kCrossfade; cs_internal := None |}.
  (** a response with an infinity and a NaN in it *)
  Definition ir2 : audio F := [[ieee_of_nat 3; S754_infinity true; ieee_of_nat 1]; [S754_nan; S754_zero true; ieee_of_nat 7]].
  Definition garbage : audio F := [[S754_nan; S754_infinity false; ieee_of_nat 2; ieee_of_nat 1; S754_nan]; [ieee_of_nat 2; S754_nan; S754_nan; S754_infinity true; ieee_of_nat 1]].
  Definition silence (n : nat) : audio F := zeros 2 n.
  Lemma made : exists c, @well_made F fast_rfft 2 3 ir2 40 spec2 c.
  Proof.
    apply C62_construction; try (cbn; lia); [apply fast_rfft_sized|].
    split; auto. intros x H; repeat (destruct H as [<-|H]); try destruct H; reflexivity.
  Qed.
  Example C62_example :
    exists c, @conv_make F fast_rfft ir2 40 spec2 = Ok c /\
      exists c' outs, @feed_sessions _ _ (@conv_process F fast_rfft) conv_reset c [[garbage; silence 100]; [garbage]] = Ok (c', outs).
  Proof.
    destruct made as (c & Hc). exists c. split; [apply Hc|].
    destruct (C62_never_fails F fast_rfft (fast_rfft_sized F) 2 3 ir2 40 spec2 c Hc [[garbage; silence 100]; [garbage]]) as (c' & outs & E & _); eauto.
    assert (H1 : block_of 2 5 garbage) by (split; auto; intros x H; repeat (destruct H as [<-|H]); try destruct H; reflexivity).
    assert (H2 : block_of 2 100 (silence 100)) by (split; auto; intros x H; repeat (destruct H as [<-|H]); try destruct H; reflexivity).
    intros bs H b Hb. repeat (destruct H as [<-|H]); try destruct H; repeat (destruct Hb as [<-|Hb]); try destruct Hb; eauto.
  Qed.
  (** the engine: load, prepare, process garbage, reset, clear *)
  Example C62_engine_example :
    let I := @convolver_if F fast_rfft in
    let s := {| ps_rate_num := 44100; ps_rate_den := 1; ps_max_block := 64; ps_channels := 2 |} in
    exists c : convolver F, @conv_make F fast_rfft ir2 40 spec2 = Ok c /\
    exists e outs, eng_run I (eng_new I [])
      [Others I [Deliver I {| h_id := 1; h_cv := c : cv I |}]; Prepare I s; Process I garbage; Process I (silence 64); Reset I;
       Process I garbage; Clear I; Process I garbage] = Ok (e, outs).
  Proof.
    intros I s. destruct made as (c & Hc). exists c. split; [apply Hc|].
    assert (H1 : block_of 2 5 garbage) by (split; auto; intros x H; repeat (destruct H as [<-|H]); try destruct H; reflexivity).
    assert (H2 : block_of 2 64 (silence 64)) by (split; auto; intros x H; repeat (destruct H as [<-|H]); try destruct H; reflexivity).
    edestruct (C62_engine_never_fails F fast_rfft (fast_rfft_sized F) 2 ltac:(lia) []) as (e & outs & E & _); [constructor| |exists e, outs; exact E].
    assert (HS : spec_ok 2 s) by (unfold spec_ok, rate_ok; cbn; lia).
    assert (P1 : exists M m, Some (ps_max_block s) = Some M /\ m <= M /\ block_of 2 m garbage) by (exists 64, 5; repeat split; try apply H1; cbn; lia).
    assert (P2 : exists M m, Some (ps_max_block s) = Some M /\ m <= M /\ block_of 2 m (silence 64)) by (exists 64, 64; repeat split; try apply H2; cbn; lia).
    cbn [legal]. split; [intros h [Eh|[]]; injection Eh as <-; apply (used_new fast_rfft 2 3 ir2 40 spec2); exact Hc|].
    split; auto. split; auto. split; auto. split; [discriminate|]. split; auto. split; [discriminate|]. split; auto.
  Qed.
  (** Five samples of garbage, then silence: from 172 samples later on the output is what silence alone gives, whatever came
      before the last reset. *)
  Example C63_example :
    exists c, @conv_make F fast_rfft ir2 40 spec2 = Ok c /\
    exists s past s' past' e outs e' outs',
      @feed_sessions _ _ (@conv_process F fast_rfft) conv_reset c [[garbage; silence 20]] = Ok (s, past) /\
      @feed _ _ (@conv_process F fast_rfft) s [garbage; silence 300; silence 45] = Ok (e, outs) /\
      @feed_sessions _ _ (@conv_process F fast_rfft) conv_reset c [[silence 5; silence 20]] = Ok (s', past') /\
      @feed _ _ (@conv_process F fast_rfft) s' [silence 5; silence 300; silence 45] = Ok (e', outs') /\
      same_shapes outs outs' /\ agree_from 2 (5 + 167) outs outs'.
  Proof.
    destruct made as (c & Hc). exists c. split; [apply Hc|].
    assert (H1 : block_of 2 5 garbage) by (split; auto; intros x H; repeat (destruct H as [<-|H]); try destruct H; reflexivity).
    assert (H2 : forall n, block_of 2 n (silence n)) by (intros n; split; auto; intros x H; repeat (destruct H as [<-|H]); try destruct H; apply repeat_length).
    refine (C63_finite_memory F fast_rfft (fast_rfft_sized F) 2 3 ir2 40 spec2 c 32 Hc eq_refl 5 _ _ _ _ _ _ _ _ _).
    - intros bs [<-|[]] b [<-|[<-|[]]]; eauto.
    - intros b [<-|[<-|[<-|[]]]]; eauto.
    - repeat constructor.
    - repeat constructor.
    - intros [|[|?]] Hc'; [reflexivity|reflexivity|lia].
  Qed.
End IEEEExamples.
(** The garbage does come out at first: with a response of one sample, after one NaN. *)
Example C63_nan_comes_out :
  let one := ieee_of_nat 1 in
  let F := IEEE (fun _ => one) (fun _ => S754_zero false) (fun w _ => w) in
  match @conv_make F fast_rfft [[one]] 32 {| cs_in := [0]; cs_out := [0]; cs_fade := kCrossfade; cs_internal := None |} with
  | Ok c => match @feed _ _ (@conv_process F fast_rfft) c [[[S754_nan]]; [repeat (S754_zero false) 3]; [repeat (S754_zero false) 180]] with
            | Ok (_, outs) => Some (nth 0 (@channel F 0 outs) one, nth 3 (@channel F 0 outs) one, nth 180 (@channel F 0 outs) one)
            | _ => None
            end
  | _ => None
  end = Some (S754_nan, S754_nan, S754_zero false).
Proof. vm_compute. reflexivity. Qed.

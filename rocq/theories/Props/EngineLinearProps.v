(** * C69, C70, C71: the whole engine is linear and stable, and keeps channels apart *)
From Coq Require Import Reals Lra Lia Psatz.
From Verif.Model Require Import Base Arith ArithReal ArithMod Juce SmoothedValue Partitioning UniformPartitionedConvolver TimeDistributedNUPC Convolver ConvolutionEngine.
From Verif.Spec Require Import Transform RealFFT Signal Routing Engine Memory Precision Superposition.
From Verif.Proofs Require Import Lists ComplexAlg Blocks Streams RealFFTProof Norms SmoothProof FadeProof EngineProof EngineInv EngineFade EngineFamily ConvolverFamily.
From Verif.Props Require Import ConvolverProps EngineProps WholeProps.

Open Scope nat_scope.

(** convolvers made from a response *)
Definition loaded {A : arith} (R : rfft A) (w : nat) (resp : conv_spec -> audio A -> Prop) (c : convolver A) : Prop :=
  exists m ir M spec, well_made R w m ir M spec c /\ resp spec ir.
Lemma loaded_used {A : arith} (R : rfft A) w resp c : loaded R w resp c -> used R w c.
Proof. intros (m & ir & M & spec & H & _). eapply used_new; eauto. Qed.

Section Mixed.
  Context {A : arith} (L : arith_laws A) {K : Type} (k0 : K) (w : nat) (irel : nat -> (K -> sample A) -> Prop).
  Hypothesis Hw : 0 < w.
  Lemma mixed_nth spec ir cur k o t : routes w spec ir -> Forall (related w irel) cur -> o < w -> t < total (of_k cur k0) ->
    nth t (mixed (length ir) (fun c => nth c ir []) (cs_in spec) (cs_out spec) (of_k cur k) o) s0 =
    ssum (length ir) (fun c => if nth c (cs_out spec) 0 =? o then conv_at (nth c ir []) (channel (nth c (cs_in spec) 0) (of_k cur k)) t else s0).
  Proof.
    intros (G1 & G2 & _) Hcur Ho Ht. unfold mixed. pose proof (related_blocks w irel cur k Hcur) as HB.
    assert (HL : forall c, c < w -> length (channel c (of_k cur k)) = total (of_k cur k0)).
    { intros c Hc. rewrite (channel_total w Hw (of_k cur k) c HB Hc). now apply (related_total k0 w irel). }
    rewrite tab_nth by (rewrite HL; auto). apply ssum_ext. intros c Hc. destruct (_ =? o); auto. unfold convolve. rewrite tab_nth; auto.
    rewrite HL; auto. apply G2. replace (nth c (cs_in spec) 0) with (nth c (firstn (length ir) (cs_in spec)) 0).
    - apply nth_In. rewrite firstn_length. lia.
    - rewrite nth_firstn'. destruct (Nat.ltb_spec c (length ir)); auto. lia.
  Qed.
  Lemma routed_in spec (ir : audio A) c : routes w spec ir -> c < length ir -> nth c (cs_in spec) 0 < w.
  Proof.
    intros (G1 & G2 & _) Hc. apply G2. replace (nth c (cs_in spec) 0) with (nth c (firstn (length ir) (cs_in spec)) 0).
    - apply nth_In. rewrite firstn_length. lia.
    - rewrite nth_firstn'. destruct (Nat.ltb_spec c (length ir)); auto. lia.
  Qed.
End Mixed.

Section Runs.
  Context {A : arith} (L : arith_laws A) (R : rfft A) (HR : rfft_ok R) {K : Type} (k0 : K) (w : nat) (Hw : 0 < w).
  Notation I := (convolver_if R).
  Variables (irel srel : nat -> (K -> sample A) -> Prop) (resp : conv_spec -> audio A -> Prop).
  Variables (mixes : sample A -> sample A -> Prop) (scales : sample A -> Prop) (lev : fade_strategy -> smooth A -> smooth A -> Prop).
  Hypothesis HF : family_ok k0 I w irel srel (loaded R w resp) (convs R w irel resp) mixes scales lev.
  Hypothesis Hext : forall ch x y, (forall k, x k = y k) -> srel ch x -> srel ch y.
  (** the runs do not fail, and what comes out is related *)
  Lemma family_runs env l : lev kInOut sm_new sm_new -> Forall (delivers_ok I (loaded R w resp)) env ->
    (forall k, legal I w (loaded R w resp) None (l k)) -> histories I w irel l ->
    exists p, (forall k, eng_run I (eng_new I env) (l k) = Ok (p k)) /\ outputs w srel (fun k => snd (p k)).
  Proof.
    intros HL He Hl HH.
    assert (HE : Forall (delivers_ok I (used R w)) env).
    { eapply Forall_impl; [|exact He]. intros x Hx h Hh. apply (loaded_used R w resp), Hx, Hh. }
    assert (HG : forall l P, legal I w (loaded R w resp) P l -> legal I w (used R w) P l).
    { induction l0 as [|o l0 IH]; intros P; cbn [legal]; auto. destruct o; intros [G1 G2]; split; auto. intros h Hh. apply (loaded_used R w resp), G1, Hh. }
    destruct (okF (fun k => eng_run I (eng_new I env) (l k))) as (p & Hp).
    { intros k. destruct (C46_never_fails A I w (used R w) Hw (C46_convolvers_are_accepting A L R HR w) env (l k) HE (HG _ _ (Hl k))) as (e & o & E & _). eauto. }
    exists p. split; auto.
    destruct (run_fam k0 I w irel srel (loaded R w resp) (convs R w irel resp) mixes scales lev Hw HF Hext
      l HH None (fun _ => eng_new I env) (fun k => fst (p k)) (fun k => snd (p k))) as [_ HO]; auto.
    - now apply new_fam.
    - intros k. rewrite Hp. now destruct (p k).
  Qed.
End Runs.

(** ** C69 *)
Inductive three : Set := X1 | X2 | X3.
Definition pick {T} (x y z : T) (k : three) : T := match k with X1 => x | X2 => y | X3 => z end.

Section C69.
  Context {A : arith} (L : arith_laws A) (R : rfft A) (HR : rfft_ok R) (w : nat) (Hw : 0 < w) (a b : sample A).
  Let Sring := law_ring A L.
  Add Ring sring69 : Sring.
  Notation I := (convolver_if R).
  Definition lin (ch : nat) (x : three -> sample A) : Prop := x X3 = sadd (smul a (x X1)) (smul b (x X2)).
  Definition any2 (_ _ : sample A) : Prop := True.
  Definition any1 (_ : sample A) : Prop := True.
  Definition anylev (_ : fade_strategy) (_ _ : smooth A) : Prop := True.
  Lemma lin_ext ch x y : (forall k, x k = y k) -> lin ch x -> lin ch y.
  Proof. unfold lin. intros E. now rewrite !E. Qed.
  Lemma lin_family : family_ok X1 I w lin lin (loaded R w (fun _ _ => True)) (convs R w lin (fun _ _ => True)) any2 any1 anylev.
  Proof.
    apply (real_family X1 L R HR w lin lin (fun _ _ => True) Hw lin_ext); try (unfold anylev, any1, any2; intuition; fail).
    - intros spec ir cur _ RT Hcur o t Ho Ht. unfold lin. rewrite !(mixed_nth X1 w lin Hw) by auto.
      rewrite <- !(ssum_mul_l L), <- (ssum_add L). apply ssum_ext. intros c Hc. destruct (_ =? o); [|ring].
      pose proof (routed_in w Hw spec ir c RT Hc) as Hin. apply (conv_at_linear L). intros i Hi.
      exact (related_nth X1 w lin Hw cur (nth c (cs_in spec) 0) i Hcur Hin ltac:(lia) (lin_ext _)).
    - intros ch x y g g' H1 H2 _. unfold lin in *. rewrite H1, H2. ring.
    - intros ch x g H1 _. unfold lin in *. rewrite H1. ring.
  Qed.

  Lemma weighted_at m (x y : audio A) ch i : block_of w m x -> block_of w m y -> ch < w -> i < m ->
    at_ (weighted a b x y) ch i = sadd (smul a (at_ x ch i)) (smul b (at_ y ch i)).
  Proof.
    intros [H1 H2] [H3 H4] Hc Hi. unfold at_, weighted.
    assert (Z : forall (T U V : Type) (f : T -> U -> V) l l' j d d' d'', j < length l -> j < length l' -> nth j (zipw f l l') d'' = f (nth j l d) (nth j l' d')).
    { intros T U V f l. induction l as [|u l IH]; intros [|v l'] j d d' d'' J1 J2; cbn in *; try lia. destruct j; auto. apply IH; lia. }
    rewrite (Z _ _ _ _ _ _ ch [] [] []) by lia.
    apply (Z _ _ _ (fun u v => sadd (smul a u) (smul b v)) _ _ i s0 s0 s0); [rewrite H2|rewrite H4]; auto; apply nth_In; lia.
  Qed.
  Lemma weighted_block m (x y : audio A) : block_of w m x -> block_of w m y -> block_of w m (weighted a b x y).
  Proof.
    intros [H1 H2] [H3 H4]. unfold weighted.
    assert (Z : forall (T U V : Type) (f : T -> U -> V) l l', length l = length l' -> length (zipw f l l') = length l).
    { intros T U V f l. induction l as [|u l IH]; intros [|v l'] E; cbn in *; try lia. now rewrite IH by lia. }
    split; [rewrite Z; lia|]. clear H1 H3. revert y H4. induction x as [|u x IH]; intros [|v y] H4 c Hc; cbn in Hc; try contradiction.
    destruct Hc as [<-|Hc].
    - rewrite Z; [apply H2; now left|]. rewrite (H2 u), (H4 v); auto; now left.
    - apply (IH (fun c Hc => H2 c (or_intror Hc)) y (fun c Hc => H4 c (or_intror Hc)) c Hc).
  Qed.
  Lemma shape_block m (x y : audio A) : same_shape x y -> block_of w m x -> block_of w m y.
  Proof.
    intros E [H1 H2]. assert (EL : length y = length x) by (apply (f_equal (@length _)) in E; now rewrite !map_length in E).
    split; [lia|]. intros c Hc. apply (in_map (@length _)) in Hc. unfold same_shape in E. rewrite <- E in Hc. apply in_map_iff in Hc as (z & <- & Hz). auto.
  Qed.
  Lemma block_shape m (x y : audio A) : block_of w m x -> block_of w m y -> same_shape x y.
  Proof.
    intros [H1 H2] [H3 H4]. unfold same_shape.
    assert (X : forall n (z : audio A), (forall c, In c z -> length c = m) -> length z = n -> map (@length _) z = repeat m n).
    { intros n z Hz <-. induction z as [|c z IH]; cbn; auto. rewrite Hz by now left. f_equal. apply IH. intros; apply Hz. now right. }
    rewrite (X w x), (X w y); auto.
  Qed.
  Lemma weighted_eq m (x y z : audio A) : block_of w m x -> block_of w m y -> block_of w m z ->
    (forall ch i, ch < w -> i < m -> at_ z ch i = sadd (smul a (at_ x ch i)) (smul b (at_ y ch i))) -> z = weighted a b x y.
  Proof.
    intros Hx Hy Hz H. pose proof (weighted_block m x y Hx Hy) as HW.
    apply (nth_ext _ _ [] []); [destruct Hz, HW; congruence|]. intros ch Hch. destruct Hz as [Z1 Z2], HW as [W1 W2].
    assert (L1 : length (nth ch z []) = m) by (apply Z2, nth_In; lia).
    assert (L2 : length (nth ch (weighted a b x y) []) = m) by (apply W2, nth_In; lia).
    apply (nth_ext _ _ s0 s0); [congruence|]. intros i Hi. rewrite L1 in Hi.
    change (at_ z ch i = at_ (weighted a b x y) ch i). rewrite H, (weighted_at m) by (auto; lia). reflexivity.
  Qed.

  Lemma histories_of P l1 l2 l3 : sum_of_histories I a b l1 l2 l3 -> legal I w (loaded R w (fun _ _ => True)) P l1 ->
    histories I w lin (pick l1 l2 l3) /\ legal I w (loaded R w (fun _ _ => True)) P l2 /\ legal I w (loaded R w (fun _ _ => True)) P l3.
  Proof.
    intros H. revert P. induction H as [|x y z xs ys zs Hc H IH]; intros P HL.
    - split; [apply hs_nil; now intros []|auto].
    - destruct Hc as [x y Hs|o Ho].
      + cbn [legal] in HL. destruct HL as [(M & m & HP & Hm & Hb) HL]. destruct (IH _ HL) as (IH1 & IH2 & IH3).
        pose proof (shape_block m x y Hs Hb) as Hb2. pose proof (weighted_block m x y Hb Hb2) as Hb3.
        split; [|split; (split; [exists M, m; auto|auto])].
        apply (hs_cons _ _ _ (pick (Process I x) (Process I y) (Process I (weighted a b x y))) (pick xs ys zs)); auto; [now intros []|].
        apply (c_process _ _ _ m (pick x y (weighted a b x y))); [now intros []|]. split; [intros []; auto|].
        intros ch i H1 H2. unfold lin. cbn [pick]. now apply (weighted_at m).
      + assert (HL2 : exists P', legal I w (loaded R w (fun _ _ => True)) P' xs /\ forall t, legal I w (loaded R w (fun _ _ => True)) P' t -> legal I w (loaded R w (fun _ _ => True)) P (o :: t)).
        { destruct o; cbn [legal] in *; destruct HL as [H1 H2]; eexists; (split; [exact H2|]); intros t Ht; split; auto. }
        destruct HL2 as (P' & HL2 & HL3). destruct (IH _ HL2) as (IH1 & IH2 & IH3). split; [|split; auto].
        apply (hs_cons _ _ _ (pick o o o) (pick xs ys zs)); auto; [now intros []|]. apply (c_same _ _ _ o); auto. now intros [].
  Qed.
  Lemma outputs_sum (f : three -> list (audio A)) : outputs w lin f -> Forall2 same_shape (f X1) (f X2) /\ f X3 = zipw (weighted a b) (f X1) (f X2).
  Proof.
    induction 1 as [l H|m o t l H [Hb Hl] Ht [IH1 IH2]].
    - rewrite !H. split; [constructor|reflexivity].
    - rewrite !H. split; [constructor; auto; now apply (block_shape m)|]. cbn [zipw]. f_equal; auto.
      apply (weighted_eq m); auto.
  Qed.
End C69.

(** Three runs of the engine with the same calls, the same loads at the same moments and blocks of the same sizes; each block of
    the third is [a] times that of the first plus [b] times that of the second.  So is each block that comes out, also while
    responses are exchanged, faded, reset or cleared. *)
Theorem C69_engine_linear : forall (A : arith), arith_laws A -> forall R : rfft A, rfft_ok R -> forall w, 0 < w ->
  let I := convolver_if R in let ok := loaded R w (fun _ _ => True) in
  forall env a b l1 l2 l3, Forall (delivers_ok I ok) env -> legal I w ok None l1 -> sum_of_histories I a b l1 l2 l3 ->
  exists e1 e2 e3 outs1 outs2,
    eng_run I (eng_new I env) l1 = Ok (e1, outs1) /\ eng_run I (eng_new I env) l2 = Ok (e2, outs2) /\
    eng_run I (eng_new I env) l3 = Ok (e3, zipw (weighted a b) outs1 outs2) /\ same_shapes outs1 outs2.
Proof.
  intros A L R HR w Hw I ok env a b l1 l2 l3 He Hl Hs.
  destruct (histories_of R w Hw a b None l1 l2 l3 Hs Hl) as (HH & Hl2 & Hl3).
  destruct (family_runs L R HR X1 w Hw (lin a b) (lin a b) (fun _ _ => True) any2 any1 anylev (lin_family L R HR w Hw a b) (lin_ext a b)
    env (pick l1 l2 l3)) as (p & Hp & HO); auto; [exact Logic.I|now intros []|].
  destruct (outputs_sum w Hw a b _ HO) as [O1 O2].
  exists (fst (p X1)), (fst (p X2)), (fst (p X3)), (snd (p X1)), (snd (p X2)).
  pose proof (Hp X1) as E1. pose proof (Hp X2) as E2. pose proof (Hp X3) as E3. cbn [pick] in E1, E2, E3. rewrite <- O2.
  split; [transitivity (Ok (p X1)); [exact E1|now destruct (p X1)]|]. split; [transitivity (Ok (p X2)); [exact E2|now destruct (p X2)]|].
  split; [transitivity (Ok (p X3)); [exact E3|now destruct (p X3)]|]. exact O1.
Qed.
Print Assumptions C69_engine_linear.

(** ** C70 *)
Section C70.
  Local Open Scope R_scope.
  Context (F : rfft Rarith) (HF : rfft_ok F) (w : nat) (Hw : (0 < w)%nat) (G p : R) (HG : 1 <= G) (Hp : 0 <= p).
  Notation I := (convolver_if F).
  Definition quiet_in (ch : nat) (x : unit -> sample Rarith) : Prop := Rabs (x tt) <= p.
  Definition quiet_out (ch : nat) (x : unit -> sample Rarith) : Prop := Rabs (x tt) <= G * p.
  Definition modest (spec : conv_spec) (ir : audio Rarith) : Prop := forall o, (o < w)%nat -> loudness spec ir o <= G.
  Definition mixes (g g' : sample Rarith) : Prop := 0 <= g /\ 0 <= g' /\ g + g' <= 1.
  Definition scales (g : sample Rarith) : Prop := 0 <= g <= 1.
  (** the two levels of a fade *)
  Definition levels (st : fade_strategy) (i o : smooth Rarith) : Prop :=
    (sm_target i = true -> sm_target o = true -> False) /\ (forall j, scales (gain i j)) /\ (forall j, scales (gain o j)) /\
    (st = kCrossfade -> forall j, gain i j + gain o j <= 1).
  Lemma level_scales b : scales (level (A := Rarith) b).
  Proof. unfold scales. destruct b; cbn; lra. Qed.
  Lemma set_gain b (v : smooth Rarith) j : gain (sm_set b v) j = level b.
  Proof. now rewrite gain_done by (cbn; lia). Qed.
  Lemma rise_R n j : (0 < n)%nat -> rise (A := Rarith) n j = INR (Nat.min (S j) n) / INR n.
  Proof. intros H. unfold rise. rewrite sofnat_INR. reflexivity. Qed.
  Lemma fall_R n j : (0 < n)%nat -> fall (A := Rarith) n j = INR (n - S j) / INR n.
  Proof. intros H. unfold fall. rewrite sofnat_INR. reflexivity. Qed.
  Lemma ratio_01 a n : (0 < n)%nat -> (a <= n)%nat -> 0 <= INR a / INR n <= 1.
  Proof.
    intros H1 H2. assert (H3 : 0 < INR n) by (apply lt_0_INR; lia). pose proof (pos_INR a). apply le_INR in H2. split.
    - apply Rmult_le_pos; auto. left. now apply Rinv_0_lt_compat.
    - apply (Rmult_le_reg_r (INR n)); auto. unfold Rdiv. rewrite Rmult_assoc, Rinv_l; lra.
  Qed.
  Lemma up_gain n (i : smooth Rarith) j : gain (sm_set_target true (sm_reset n i)) j =
    if sm_target i then 1 else if (n <=? 0)%Z then 1 else INR (Nat.min (S j) (Z.to_nat n)) / INR (Z.to_nat n).
  Proof.
    destruct (sm_target i) eqn:ET.
    - unfold sm_set_target. cbn [sm_reset sm_target]. rewrite ET. cbn [Bool.eqb]. rewrite gain_done by (cbn; lia). cbn [sm_reset sm_target]. now rewrite ET.
    - destruct (Z.leb_spec n 0) as [Hn|Hn].
      + unfold sm_set_target. cbn [sm_reset sm_target sm_steps]. rewrite ET. cbn [Bool.eqb]. destruct (Z.leb_spec n 0); [|lia]. now rewrite set_gain.
      + rewrite (rise_gain Rarith_laws Rarith_inv) by auto. apply rise_R. lia.
  Qed.
  Lemma down_gain n (o : smooth Rarith) j : gain (sm_set_target false (sm_reset n o)) j =
    if sm_target o then if (n <=? 0)%Z then 0 else INR (Z.to_nat n - S j) / INR (Z.to_nat n) else 0.
  Proof.
    destruct (sm_target o) eqn:ET.
    - destruct (Z.leb_spec n 0) as [Hn|Hn].
      + unfold sm_set_target. cbn [sm_reset sm_target sm_steps]. rewrite ET. cbn [Bool.eqb]. destruct (Z.leb_spec n 0); [|lia]. now rewrite set_gain.
      + rewrite (fall_gain Rarith_laws Rarith_inv) by auto. apply fall_R. lia.
    - unfold sm_set_target. cbn [sm_reset sm_target]. rewrite ET. cbn [Bool.eqb]. rewrite gain_done by (cbn; lia). cbn [sm_reset sm_target]. now rewrite ET.
  Qed.
  Lemma set_target_target b n (v : smooth Rarith) : sm_target (sm_set_target b (sm_reset n v)) = b.
  Proof. unfold sm_set_target. cbn [sm_reset sm_target sm_steps]. destruct (Bool.eqb b (sm_target v)) eqn:E; [|now destruct (_ <=? _)%Z]. cbn. now apply Bool.eqb_prop in E. Qed.
  Lemma levels_begin st st' n i o : levels st i o -> levels st' (sm_set_target true (sm_reset n i)) (sm_set_target false (sm_reset n o)).
  Proof.
    intros (H & _). split; [rewrite !set_target_target; discriminate|]. unfold scales.
    assert (U : forall j, 0 <= gain (sm_set_target true (sm_reset n i)) j <= 1).
    { intros j. rewrite up_gain. destruct (sm_target i); [lra|]. destruct (Z.leb_spec n 0); [lra|]. apply ratio_01; lia. }
    assert (D : forall j, 0 <= gain (sm_set_target false (sm_reset n o)) j <= 1).
    { intros j. rewrite down_gain. destruct (sm_target o); [|lra]. destruct (Z.leb_spec n 0); [lra|]. apply ratio_01; lia. }
    split; auto. split; auto. intros _ j. destruct (sm_target o) eqn:EO.
    - rewrite up_gain, down_gain, EO. destruct (sm_target i); [now elim H|]. destruct (Z.leb_spec n 0); [lra|].
      assert (0 < INR (Z.to_nat n)) by (apply lt_0_INR; lia). unfold Rdiv. rewrite <- Rmult_plus_distr_r, <- plus_INR.
      replace (Nat.min (S j) (Z.to_nat n) + (Z.to_nat n - S j))%nat with (Z.to_nat n) by lia. rewrite Rinv_r; lra.
    - specialize (U j). rewrite (down_gain n o), EO. lra.
  Qed.
  Lemma levels_restart st i o : levels st (sm_set false i) (sm_set true o).
  Proof. split; [discriminate|]. split; [|split]; intros; rewrite ?set_gain; try apply level_scales. cbn. lra. Qed.
  Lemma levels_new : levels kInOut (@sm_new Rarith) (@sm_new Rarith).
  Proof.
    split; [discriminate|]. assert (H : forall j, gain (@sm_new Rarith) j = 0) by (intros j; now rewrite gain_done by (cbn; lia)).
    unfold scales. repeat split; intros; rewrite ?H; try lra.
  Qed.
  Lemma iter_scales m (v : smooth Rarith) : (forall j, scales (gain v j)) -> forall j, scales (gain (sm_iter m v) j).
  Proof. intros H j. rewrite gain_iter. apply H. Qed.

  Lemma quiet_ext ch x y : (forall k, x k = y k) -> quiet_out ch x -> quiet_out ch y.
  Proof. unfold quiet_out. intros E. now rewrite E. Qed.
  Lemma conv_at_loud (h x : list R) t : (forall i, (i <= t)%nat -> Rabs (nth i x 0) <= p) ->
    Rabs (@conv_at Rarith h x t) <= rsum (length h) (fun j => Rabs (nth j h 0)) * p.
  Proof.
    intros H. unfold conv_at. rewrite ssum_rsum. eapply Rle_trans; [apply rsum_abs|].
    assert (X : rsum (S t) (fun j => Rabs (nth j h 0)) <= rsum (length h) (fun j => Rabs (nth j h 0))).
    { destruct (Nat.le_gt_cases (S t) (length h)) as [Hl|Hl].
      - replace (length h) with (S t + (length h - S t))%nat by lia. rewrite rsum_app.
        assert (0 <= rsum (length h - S t) (fun i => Rabs (nth (S t + i) h 0))) by (apply rsum_nonneg; intros; apply Rabs_pos). lra.
      - replace (S t) with (length h + (S t - length h))%nat by lia. rewrite rsum_app.
        rewrite (rsum_ext (S t - length h) _ (fun _ => 0)); [rewrite rsum_const; lra|].
        intros i Hi. rewrite nth_overflow by lia. apply Rabs_R0. }
    apply (Rmult_le_compat_r p) in X; auto. eapply Rle_trans; [|exact X]. rewrite Rmult_comm, <- rsum_scal. apply rsum_le. intros j Hj.
    cbn [smul Rarith]. rewrite Rabs_mult, Rmult_comm. apply Rmult_le_compat_r; [apply Rabs_pos|]. apply H. lia.
  Qed.
  Lemma quiet_family : family_ok tt I w quiet_in quiet_out (loaded F w modest) (convs F w quiet_in modest) mixes scales levels.
  Proof.
    apply (real_family tt Rarith_laws F HF w quiet_in quiet_out modest Hw quiet_ext).
    - intros spec ir cur HM RT Hcur o t Ho Ht. unfold quiet_out. rewrite (mixed_nth tt w quiet_in Hw) by auto. rewrite ssum_rsum.
      eapply Rle_trans; [apply rsum_abs|]. apply Rle_trans with (loudness spec ir o * p).
      + unfold loudness. rewrite Rmult_comm, <- rsum_scal. apply rsum_le. intros c Hc. destruct (_ =? o)%nat; [|cbn; rewrite Rabs_R0; lra].
        rewrite Rmult_comm. apply conv_at_loud. intros i Hi. pose proof (routed_in w Hw spec ir c RT Hc) as Hin.
        apply (related_nth tt w quiet_in Hw cur (nth c (cs_in spec) 0%nat) i Hcur Hin ltac:(lia)). unfold quiet_in. intros x y E. now rewrite E.
      + apply Rmult_le_compat_r; auto.
    - unfold quiet_in, quiet_out. intros ch x H. nra.
    - unfold quiet_out. intros ch x y g g' H1 H2 (M1 & M2 & M3). cbn [sadd smul Rarith]. eapply Rle_trans; [apply Rabs_triang|].
      rewrite !Rabs_mult, (Rabs_pos_eq g), (Rabs_pos_eq g') by auto. assert (0 <= G * p) by nra. nra.
    - unfold quiet_out. intros ch x g H1 (M1 & M2). cbn [smul Rarith]. rewrite Rabs_mult, (Rabs_pos_eq g) by auto. assert (0 <= G * p) by nra. pose proof (Rabs_pos (x tt)). nra.
    - exact levels_restart.
    - exact levels_begin.
    - intros i o (H1 & H2 & H3 & H4). split.
      + intros j. specialize (H4 eq_refl j). destruct (H2 j), (H3 j). unfold mixes. lra.
      + intros m. split; [rewrite !sm_iter_target; auto|]. split; [now apply iter_scales|]. split; [now apply iter_scales|]. intros E j. rewrite !gain_iter. auto.
    - intros i o (H1 & H2 & H3 & H4). split; [auto|]. intros m. split; (split; [rewrite ?sm_iter_target; auto|]); (split; [|split]); auto using iter_scales; discriminate.
  Qed.
  Lemma quiet_histories P l : legal I w (loaded F w modest) P l -> (forall b, In (Process I b) l -> no_louder p b) -> histories I w quiet_in (fun _ : unit => l).
  Proof.
    revert P. induction l as [|o l IH]; intros P HL HQ; [now apply hs_nil|].
    assert (HI : histories I w quiet_in (fun _ : unit => l)).
    { destruct o; cbn [legal] in HL; destruct HL as [_ HL]; apply (IH _ HL); intros b0 Hb0; apply HQ; now right. }
    apply (hs_cons _ _ _ (fun _ => o) (fun _ => l)); auto.
    destruct o as [sp|b| | |ac]; try (refine (c_same _ _ _ _ _ _ (fun _ => eq_refl)); discriminate).
    cbn [legal] in HL. destruct HL as [(M & m & HP & Hm & Hb) _]. apply (c_process _ _ _ m (fun _ => b)); auto. split; auto.
    intros ch i H1 H2. unfold quiet_in. destruct Hb as [B1 B2].
    assert (L1 : length (nth ch b []) = m) by (apply B2, nth_In; lia).
    apply (HQ b (or_introl eq_refl) (nth ch b [])); unfold at_; apply nth_In; lia.
  Qed.
  Lemma quiet_outputs (f : unit -> list (audio Rarith)) : outputs w quiet_out f -> Forall (no_louder (G * p)) (f tt).
  Proof.
    induction 1 as [l H|m o t l H [Hb Hl] Ht IH]; rewrite H; constructor; auto.
    destruct (Hb tt) as [B1 B2]. intros c x Hc Hx. destruct (In_nth _ _ [] Hc) as (ch & C1 & <-). destruct (In_nth _ _ (@s0 Rarith) Hx) as (i & I1 & <-).
    rewrite (B2 _ Hc) in I1. apply (Hl ch i); lia.
  Qed.
End C70.

(** The engine is stable: when no sample of the input is larger than [p] and no response that is loaded can make a channel more
    than [G] times louder (and [1 <= G]: without a response, the input goes through), then no sample of the output is larger than
    [G * p], whatever is loaded, exchanged, cleared or reset at whatever moments, also in the middle of fades. *)
Theorem C70_engine_stable : forall F : rfft Rarith, rfft_ok F -> forall w (G p : R), 0 < w -> (1 <= G)%R -> (0 <= p)%R ->
  let I := convolver_if F in let ok := loaded F w (fun spec ir => forall o, o < w -> (loudness spec ir o <= G)%R) in
  forall env l, Forall (delivers_ok I ok) env -> legal I w ok None l -> (forall b, In (Process I b) l -> no_louder p b) ->
  exists e outs, eng_run I (eng_new I env) l = Ok (e, outs) /\ Forall (no_louder (G * p)) outs.
Proof.
  intros F HF w G p Hw HG Hp I ok env l He Hl HQ.
  destruct (family_runs Rarith_laws F HF tt w Hw (quiet_in p) (quiet_out G p) (modest w G) mixes scales levels (quiet_family F HF w Hw G p HG Hp) (quiet_ext G p)
    env (fun _ => l)) as (q & Hq & HO); auto.
  - exact (levels_new w Hw).
  - now apply (quiet_histories F w Hw G p None).
  - exists (fst (q tt)), (snd (q tt)). split; [transitivity (Ok (q tt)); [exact (Hq tt)|now destruct (q tt)]|]. exact (quiet_outputs w Hw G p _ HO).
Qed.
Print Assumptions C70_engine_stable.

(** Two runs with the same calls and the same loads, whose inputs differ by at most [d] in every sample: so do the outputs, by
    at most [G * d]. *)
Definition diff (x y : audio Rarith) : audio Rarith := weighted (1%R : sample Rarith) ((-1)%R : sample Rarith) x y.
Section Diff.
  Variables (w : nat) (Hw : 0 < w).
  Lemma diff_at m x y ch i : block_of w m x -> block_of w m y -> ch < w -> i < m -> at_ (diff x y) ch i = (at_ x ch i - at_ y ch i)%R.
  Proof. intros. unfold diff. rewrite (weighted_at w Hw _ _ m) by auto. cbn. ring. Qed.
  Lemma diff_quiet m d x y : block_of w m x -> block_of w m y -> close d x y -> no_louder d (diff x y).
  Proof.
    intros Hx Hy [_ H] c z Hc Hz. pose proof (weighted_block w Hw (1%R : sample Rarith) ((-1)%R : sample Rarith) m x y Hx Hy) as [B1 B2]. fold (diff x y) in B1, B2.
    destruct (In_nth _ _ [] Hc) as (ch & C1 & <-). destruct (In_nth _ _ (@s0 Rarith) Hz) as (i & I1 & <-). rewrite (B2 _ Hc) in I1. rewrite B1 in C1.
    change (Rabs (at_ (diff x y) ch i) <= d)%R. rewrite (diff_at m) by auto. apply (H ch i).
  Qed.
  Lemma quiet_diff m d x y : (0 <= d)%R -> block_of w m x -> same_shape x y -> no_louder d (diff x y) -> close d x y.
  Proof.
    intros Hd Hx Hs H. pose proof (shape_block w Hw m x y Hs Hx) as Hy. split; auto. intros c i.
    pose proof (weighted_block w Hw (1%R : sample Rarith) ((-1)%R : sample Rarith) m x y Hx Hy) as [B1 B2]. fold (diff x y) in B1, B2.
    assert (Z : forall b : audio Rarith, block_of w m b -> ~ (c < w /\ i < m) -> nth i (nth c b []) 0%R = 0%R).
    { intros b [N1 N2] N. destruct (Nat.lt_ge_cases c w) as [C|C]; [|rewrite (nth_overflow b) by lia; now destruct i].
      apply nth_overflow. change (length (nth c b []) <= i). rewrite (N2 (nth c b [])) by (apply nth_In; lia). lia. }
    destruct (Nat.lt_ge_cases c w) as [C|C]; [destruct (Nat.lt_ge_cases i m) as [J|J]|].
    - change (Rabs (at_ x c i - at_ y c i) <= d)%R. rewrite <- (diff_at m) by auto. unfold at_.
      assert (L1 : length (nth c (diff x y) []) = m) by (apply B2, nth_In; lia). apply (H (nth c (diff x y) [])); apply nth_In; lia.
    - rewrite !Z by (auto; lia). rewrite Rminus_0_r, Rabs_R0. exact Hd.
    - rewrite !Z by (auto; lia). rewrite Rminus_0_r, Rabs_R0. exact Hd.
  Qed.
End Diff.
Lemma C70_blocks (F : rfft Rarith) (HF : rfft_ok F) w (Hw : 0 < w) env l e outs : let I := convolver_if F in
  Forall (delivers_ok I (loaded F w (fun _ _ => True))) env -> legal I w (loaded F w (fun _ _ => True)) None l ->
  eng_run I (eng_new I env) l = Ok (e, outs) -> Forall (fun b => exists m, block_of w m b) outs.
Proof.
  intros I He Hl E.
  destruct (family_runs Rarith_laws F HF tt w Hw (fun _ _ => True) (fun _ _ => True) (fun _ _ => True) (fun _ _ => True) (fun _ => True) (fun _ _ _ => True)
    ltac:(apply (real_family tt Rarith_laws F HF w); auto) ltac:(auto) env (fun _ => l)) as (q & Hq & HO); auto.
  - clear - Hl. revert Hl. generalize (@None nat). induction l as [|o l IH]; intros P HL; [now apply hs_nil|].
    assert (HI : histories I w (fun _ _ => True) (fun _ : unit => l)) by (destruct o; cbn [legal] in HL; destruct HL as [_ HL]; apply (IH _ HL)).
    apply (hs_cons _ _ _ (fun _ => o) (fun _ => l)); auto.
    destruct o as [sp|b| | |ac]; try (refine (c_same _ _ _ _ _ _ (fun _ => eq_refl)); discriminate).
    cbn [legal] in HL. destruct HL as [(M & m & HP & Hm & Hb) _]. apply (c_process _ _ _ m (fun _ => b)); auto. split; auto.
  - specialize (Hq tt). assert (EE : Ok (q tt) = Ok (e, outs)) by exact (eq_trans (eq_sym Hq) E). apply ok_inj in EE.
    replace outs with (snd (q tt)) by now rewrite EE. clear - HO.
    assert (X : forall f : unit -> list (audio Rarith), outputs w (fun _ _ => True) f -> Forall (fun b => exists m, block_of w m b) (f tt)).
    { induction 1 as [f H|m b t f H [Hb _] Ht IH]; rewrite H; constructor; auto. exists m. apply Hb. }
    exact (X _ HO).
Qed.
Theorem C70_small_changes : forall F : rfft Rarith, rfft_ok F -> forall w (G d : R), 0 < w -> (1 <= G)%R -> (0 <= d)%R ->
  let I := convolver_if F in let ok := loaded F w (fun spec ir => forall o, o < w -> (loudness spec ir o <= G)%R) in
  forall env l l', Forall (delivers_ok I ok) env -> legal I w ok None l -> Forall2 (close_calls I d) l l' ->
  exists e outs e' outs', eng_run I (eng_new I env) l = Ok (e, outs) /\ eng_run I (eng_new I env) l' = Ok (e', outs') /\
    Forall2 (close (G * d)) outs outs'.
Proof.
  intros F HF w G d Hw HG Hd I ok env l l' He Hl HC.
  assert (W : forall c, ok c -> loaded F w (fun _ _ => True) c) by (intros c (m & ir & M & spec & H & _); exists m, ir, M, spec; auto).
  assert (WL : forall l P, legal I w ok P l -> legal I w (loaded F w (fun _ _ => True)) P l).
  { induction l0 as [|o l0 IH]; intros P; cbn [legal]; auto. destruct o; intros [G1 G2]; split; auto. intros h Hh. apply W, G1, Hh. }
  assert (X : exists l3, sum_of_histories I (1%R : sample Rarith) ((-1)%R : sample Rarith) l l' l3 /\ legal I w ok None l3 /\ forall b, In (Process I b) l3 -> no_louder d b).
  { revert Hl. generalize (@None nat). induction HC as [|o o' t t' Ho HC IH]; intros P Hl; [exists []; split; [constructor|split; [auto|intros b []]]|].
    destruct Ho as [x y Hq|o Ho].
    - cbn [legal] in Hl. destruct Hl as [(M & m & HP & Hm & Hb) Hl]. destruct (IH _ Hl) as (l3 & H1 & H2 & H3).
      exists (Process I (diff x y) :: l3). pose proof (shape_block w Hw m x y (proj1 Hq) Hb) as Hb'. split; [constructor; auto; constructor; apply Hq|]. split.
      + cbn [legal]. split; auto. exists M, m. split; auto. split; auto. now apply weighted_block.
      + intros b [E|Hin]; auto. injection E as <-. now apply (diff_quiet w Hw m).
    - assert (HL2 : exists P', legal I w ok P' t /\ forall t, legal I w ok P' t -> legal I w ok P (o :: t)).
      { destruct o; cbn [legal] in *; destruct Hl as [H1 H2]; eexists; (split; [exact H2|]); intros t0 Ht; split; auto. }
      destruct HL2 as (P' & HL2 & HL3). destruct (IH _ HL2) as (l3 & H1 & H2 & H3). exists (o :: l3).
      split; [constructor; auto; now constructor|]. split; auto. intros b [E|Hin]; auto. now elim (Ho b). }
  destruct X as (l3 & H1 & H2 & H3).
  destruct (C69_engine_linear Rarith Rarith_laws F HF w Hw env (1%R : sample Rarith) ((-1)%R : sample Rarith) l l' l3) as (e1 & e2 & e3 & o1 & o2 & E1 & E2 & E3 & SH); auto.
  { eapply Forall_impl; [|exact He]. intros x Hx h Hh. now apply W, Hx. }
  destruct (C70_engine_stable F HF w G d Hw HG Hd env l3 He H2 H3) as (e3' & o3 & E3' & HQ).
  assert (EO : o3 = zipw diff o1 o2).
  { assert (EE : Ok (e3', o3) = Ok (e3, zipw diff o1 o2)) by exact (eq_trans (eq_sym E3') E3). injection EE as _ ->. reflexivity. }
  exists e1, o1, e2, o2. split; [exact E1|]. split; [exact E2|].
  assert (BO : Forall (fun b => exists m, block_of w m b) o1).
  { apply (C70_blocks F HF w Hw env l e1 o1); auto.
    eapply Forall_impl; [|exact He]. intros x Hx h Hh. now apply W, Hx. }
  assert (HD : (0 <= G * d)%R) by (apply Rmult_le_pos; lra).
  clear - SH EO HQ BO HD Hw. subst o3. induction SH as [|x y xs ys Hs SH IH]; constructor.
  - inversion BO as [|? ? (m & Hm)]; subst. apply (quiet_diff w Hw m); auto. now inversion HQ.
  - apply IH; [now inversion HQ|now inversion BO].
Qed.
Print Assumptions C70_small_changes.

(** ** C71 *)
Section C71.
  Context {A : arith} (L : arith_laws A) (R : rfft A) (HR : rfft_ok R) (w : nat) (Hw : 0 < w) (feeds : nat -> Prop) (o : nat) (Hfo : feeds o) (How : o < w).
  Notation I := (convolver_if R).
  Definition same_in (ch : nat) (x : bool -> sample A) : Prop := feeds ch -> x true = x false.
  Definition same_out (ch : nat) (x : bool -> sample A) : Prop := ch = o -> x true = x false.
  Definition any2' (_ _ : sample A) : Prop := True.
  Definition any1' (_ : sample A) : Prop := True.
  Definition anylev' (_ : fade_strategy) (_ _ : smooth A) : Prop := True.
  Lemma same_ext ch x y : (forall k, x k = y k) -> same_out ch x -> same_out ch y.
  Proof. unfold same_out. intros E. now rewrite !E. Qed.
  Lemma same_family : family_ok true I w same_in same_out (loaded R w (takes_from feeds o)) (convs R w same_in (takes_from feeds o)) any2' any1' anylev'.
  Proof.
    apply (real_family true L R HR w same_in same_out (takes_from feeds o) Hw same_ext); try (unfold anylev', any1', any2'; intuition; fail).
    - intros spec ir cur HT RT Hcur o' t Ho Ht ->. rewrite !(mixed_nth true w same_in Hw) by auto. apply ssum_ext. intros c Hc.
      destruct (Nat.eqb_spec (nth c (cs_out spec) 0) o) as [E|E]; auto. pose proof (routed_in w Hw spec ir c RT Hc) as Hin. apply conv_at_ext. intros i Hi.
      apply (related_nth true w same_in Hw cur (nth c (cs_in spec) 0) i Hcur Hin ltac:(lia)).
      + unfold same_in. intros x y Ex Hx Hf. rewrite <- !Ex. auto.
      + now apply HT.
    - intros ch x H ->. now apply H.
    - intros ch x y g g' H1 H2 _ E. now rewrite H1, H2.
    - intros ch x g H1 _ E. now rewrite H1.
  Qed.
  Definition two {T} (x y : T) (k : bool) : T := if k then x else y.
  Lemma same_histories P l l' : Forall2 (same_calls_on I feeds) l l' -> legal I w (loaded R w (takes_from feeds o)) P l ->
    histories I w same_in (two l l') /\ legal I w (loaded R w (takes_from feeds o)) P l'.
  Proof.
    intros H. revert P. induction H as [|x y xs ys Hc H IH]; intros P HL.
    - split; [apply hs_nil; now intros []|auto].
    - destruct Hc as [x y [Hs Hx]|c Hc].
      + cbn [legal] in HL. destruct HL as [(M & m & HP & Hm & Hb) HL]. destruct (IH _ HL) as (IH1 & IH2).
        pose proof (shape_block w Hw m x y Hs Hb) as Hb2.
        split; [|split; [exists M, m; auto|auto]].
        apply (hs_cons _ _ _ (two (Process I x) (Process I y)) (two xs ys)); auto; [now intros []|].
        apply (c_process _ _ _ m (two x y)); [now intros []|]. split; [intros []; auto|].
        intros ch i H1 H2 Hf. cbn [two]. unfold at_. now rewrite (Hx ch Hf).
      + assert (HL2 : exists P', legal I w (loaded R w (takes_from feeds o)) P' xs /\ forall t, legal I w (loaded R w (takes_from feeds o)) P' t -> legal I w (loaded R w (takes_from feeds o)) P (c :: t)).
        { destruct c; cbn [legal] in *; destruct HL as [H1 H2]; eexists; (split; [exact H2|]); intros t Ht; split; auto. }
        destruct HL2 as (P' & HL2 & HL3). destruct (IH _ HL2) as (IH1 & IH2). split; [|auto].
        apply (hs_cons _ _ _ (two c c) (two xs ys)); auto; [now intros []|]. apply (c_same _ _ _ c); auto. now intros [].
  Qed.
  Lemma same_outputs (f : bool -> list (audio A)) : outputs w same_out f -> map (fun b => nth o b []) (f true) = map (fun b => nth o b []) (f false).
  Proof.
    induction 1 as [l H|m b t l H [Hb Hl] Ht IH]; rewrite !H; [reflexivity|]. cbn [map]. f_equal; auto.
    destruct (Hb true) as [B1 B2], (Hb false) as [B3 B4].
    assert (L1 : length (nth o (b true) []) = m) by (apply B2, nth_In; lia).
    assert (L2 : length (nth o (b false) []) = m) by (apply B4, nth_In; lia).
    apply (nth_ext _ _ s0 s0); [congruence|]. intros i Hi. exact (Hl o i How ltac:(lia) eq_refl).
  Qed.
End C71.

(** Channels are kept apart.  Channel [o] of the output only depends on the input channels in [feeds]: [o] itself (the input goes
    through when nothing is loaded) and those that a response routes to it.  Two runs with the same calls and the same loads, whose
    inputs agree on the channels in [feeds], put out the same on channel [o], block by block. *)
Theorem C71_channels_apart : forall (A : arith), arith_laws A -> forall R : rfft A, rfft_ok R -> forall w (feeds : nat -> Prop) o, o < w -> feeds o ->
  let I := convolver_if R in let ok := loaded R w (takes_from feeds o) in
  forall env l l', Forall (delivers_ok I ok) env -> legal I w ok None l -> Forall2 (same_calls_on I feeds) l l' ->
  exists e outs e' outs', eng_run I (eng_new I env) l = Ok (e, outs) /\ eng_run I (eng_new I env) l' = Ok (e', outs') /\
    map (fun b => nth o b []) outs = map (fun b => nth o b []) outs'.
Proof.
  intros A L R HR w feeds o How Hfo I ok env l l' He Hl HC. assert (Hw : 0 < w) by lia.
  destruct (same_histories R w Hw feeds o None l l' HC Hl) as (HH & Hl').
  destruct (family_runs L R HR true w Hw (same_in feeds) (same_out o) (takes_from feeds o) any2' any1' anylev' (same_family L R HR w Hw feeds o Hfo How) (same_ext o)
    env (two l l')) as (p & Hp & HO); auto; [exact Logic.I|now intros []|].
  exists (fst (p true)), (snd (p true)), (fst (p false)), (snd (p false)).
  split; [transitivity (Ok (p true)); [exact (Hp true)|now destruct (p true)]|]. split; [transitivity (Ok (p false)); [exact (Hp false)|now destruct (p false)]|].
  exact (same_outputs w Hw o How _ HO).
Qed.
Print Assumptions C71_channels_apart.

(** ** a case *)
(** Two channels, each with its own response: 1 2 3 and 7 -1 0.  It is delivered before [prepare], and again, as another convolver,
    between two blocks, so that a cross-fade runs during the last three blocks; then there is a reset. *)
Section Case.
  Notation Fr := (@fast_rfft Rarith).
  Notation I := (convolver_if Fr).
  Let ir : audio Rarith := [[1; 2; 3]; [7; -1; 0]]%R.
  Let sp := {| cs_in := [0; 1]; cs_out := [0; 1]; cs_fade := kCrossfade; cs_internal := None |}.
  Let s := {| ps_rate_num := 44100; ps_rate_den := 1; ps_max_block := 64; ps_channels := 2 |}.
  Let history (c : convolver Rarith) (x : nat -> audio Rarith) :=
    let h i := {| h_id := i; h_cv := c : cv I |} in
    [Others I [Deliver I (h 1)]; Prepare I s; Process I (x 0); Others I [Deliver I (h 2)]; Process I (x 1); Process I (x 2); Reset I; Process I (x 3)].
  Lemma case_made : exists c, well_made Fr 2 3 ir 64 sp c.
  Proof.
    apply (well_made_exists Rarith_laws fast_rfft (fast_rfft_ok Rarith_laws)); cbn; try lia.
    split; auto. intros c H; repeat (destruct H as [<-|H]); try destruct H; reflexivity.
  Qed.
  Lemma case_loud o : (loudness sp ir o <= 8)%R.
  Proof.
    unfold loudness. cbn [ir length rsum sp cs_out nth]. destruct (0 =? o) eqn:E0, (1 =? o) eqn:E1; cbn [rsum nth length];
      rewrite ?(Rabs_pos_eq 1), ?(Rabs_pos_eq 2), ?(Rabs_pos_eq 3), ?(Rabs_pos_eq 7), ?Rabs_R0, ?(Rabs_left1 (-1)) by lra; try lra.
    apply Nat.eqb_eq in E0, E1. lia.
  Qed.
  Lemma case_legal c (resp : conv_spec -> audio Rarith -> Prop) x : well_made Fr 2 3 ir 64 sp c -> resp sp ir -> (forall i, block_of 2 64 (x i)) ->
    legal I 2 (loaded Fr 2 resp) None (history c x).
  Proof.
    intros Hc Hr Hx. assert (HN : loaded Fr 2 resp c) by (exists 3, ir, 64, sp; auto).
    assert (HS : spec_ok 2 s) by (unfold spec_ok, rate_ok; cbn; lia).
    assert (Q : forall i, exists M m, Some (ps_max_block s) = Some M /\ m <= M /\ block_of 2 m (x i)) by (intros i; exists 64, 64; auto).
    assert (HD : forall i, delivers_ok I (loaded Fr 2 resp) [Deliver I {| h_id := i; h_cv := c : cv I |}]) by (intros i h [Ex|[]]; injection Ex as <-; exact HN).
    unfold history. cbn [legal]. repeat (split; [first [apply HD|apply HS|apply Q|discriminate]|]). exact Logic.I.
  Qed.
  Definition flat (a b : R) : audio Rarith := [repeat a 64; repeat b 64].
  Lemma flat_block a b : block_of 2 64 (flat a b).
  Proof. split; auto. intros c H; repeat (destruct H as [<-|H]); try destruct H; apply repeat_length. Qed.
  (** the hypotheses of the three theorems are met by this history, with blocks that are the weighted sum of two others, that are no
      louder than 1, and that agree on channel 0 *)
  Example C69_C70_C71_example : exists c, well_made Fr 2 3 ir 64 sp c /\
    (exists e1 e2 e3 outs1 outs2,
      eng_run I (eng_new I []) (history c (fun i => flat (INR i) 5)) = Ok (e1, outs1) /\ eng_run I (eng_new I []) (history c (fun i => flat 1 (INR i))) = Ok (e2, outs2) /\
      eng_run I (eng_new I []) (history c (fun i => weighted (2%R : sample Rarith) (3%R : sample Rarith) (flat (INR i) 5) (flat 1 (INR i)))) =
        Ok (e3, zipw (weighted (2%R : sample Rarith) (3%R : sample Rarith)) outs1 outs2) /\ same_shapes outs1 outs2) /\
    (exists e outs, eng_run I (eng_new I []) (history c (fun i => flat (/ INR (S i)) (-1))) = Ok (e, outs) /\ Forall (no_louder (8 * 1)) outs) /\
    (exists e outs e' outs', eng_run I (eng_new I []) (history c (fun i => flat (INR i) 5)) = Ok (e, outs) /\
      eng_run I (eng_new I []) (history c (fun i => flat (INR i) (-7))) = Ok (e', outs') /\ map (fun b => nth 0 b []) outs = map (fun b => nth 0 b []) outs').
  Proof.
    destruct case_made as (c & Hc). exists c. split; auto.
    pose proof (fast_rfft_ok Rarith_laws) as HF. split; [|split].
    - apply (C69_engine_linear Rarith Rarith_laws Fr HF 2 ltac:(lia) []); [constructor|apply case_legal; [exact Hc|exact Logic.I|intros; apply flat_block]|].
      unfold history. repeat first [apply sh_nil|apply sh_cons]; (apply su_process; reflexivity) || (apply su_same; discriminate).
    - apply (C70_engine_stable Fr HF 2 8 1 ltac:(lia) ltac:(lra) ltac:(lra) []); [constructor|apply case_legal; [exact Hc|intros; apply case_loud|intros; apply flat_block]|].
      assert (Q : forall i, no_louder 1 (flat (/ INR (S i)) (-1))).
      { intros i ch x Hch Hx. destruct Hch as [<-|[<-|[]]]; apply repeat_spec in Hx; subst x; [|rewrite Rabs_left1; lra].
        assert (1 <= INR (S i))%R by (rewrite S_INR; pose proof (pos_INR i); lra).
        rewrite Rabs_pos_eq by (left; apply Rinv_0_lt_compat; lra). rewrite <- Rinv_1. apply Rinv_le_contravar; lra. }
      intros b Hb. unfold history in Hb. cbn [In] in Hb. decompose [or] Hb; try discriminate; try contradiction;
        match goal with E : Process I (flat (/ INR ?n) _) = _ |- _ => assert (EE : flat (/ INR n) (-1) = b) by congruence; rewrite <- EE; apply (Q (pred n)) end.
    - apply (C71_channels_apart Rarith Rarith_laws Fr HF 2 (eq 0) 0 ltac:(lia) eq_refl []); [constructor|apply case_legal; [exact Hc| |intros; apply flat_block]|].
      + intros ch Hch. cbn [ir length] in Hch. destruct ch as [|[|?]]; cbn; lia.
      + unfold history. repeat first [apply Forall2_nil|apply Forall2_cons]; (apply so_process; split; [reflexivity|intros ? <-; reflexivity]) || (apply so_same; discriminate).
  Qed.
End Case.

(** * A family of real convolvers, made from the same response and given related samples *)
From Verif.Model Require Import Base Arith Juce SmoothedValue Partitioning UniformPartitionedConvolver TimeDistributedNUPC Convolver ConvolutionEngine.
From Verif.Spec Require Import Transform RealFFT Signal Routing Engine.
From Verif.Proofs Require Import Lists Blocks Streams RealFFTProof SmoothProof EngineProof EngineInv EngineFamily.
From Verif.Props Require Import ConvolverProps EngineMemoryProps.

Section Real.
  Context {K : Type} (k0 : K) {A : arith} (L : arith_laws A) (R : rfft A) (HR : rfft_ok R).
  Variables (w : nat) (irel srel : nat -> (K -> sample A) -> Prop) (resp : conv_spec -> audio A -> Prop).
  Hypothesis Hw : 0 < w.
  (** the blocks of one of them *)
  Definition of_k (cur : list (K -> audio A)) (k : K) : list (audio A) := map (fun b => b k) cur.
  Definition related (b : K -> audio A) : Prop := exists m, blocks_rel w irel m b.
  (** the routing stays within the block *)
  Definition routes (spec : conv_spec) (ir : audio A) : Prop :=
    let n := length ir in
    n <= length (cs_in spec) /\ (forall i, In i (firstn n (cs_in spec)) -> i < w) /\
    n <= length (cs_out spec) /\ (forall o, In o (firstn n (cs_out spec)) -> o < w).
  Hypothesis Hext : forall ch x y, (forall k, x k = y k) -> srel ch x -> srel ch y.
  Hypothesis Hresp : forall spec ir cur, resp spec ir -> routes spec ir -> Forall related cur ->
    forall o t, o < w -> t < total (of_k cur k0) ->
    srel o (fun k => nth t (mixed (length ir) (fun c => nth c ir []) (cs_in spec) (cs_out spec) (of_k cur k) o) s0).

  Definition fresh (c : convolver A) : Prop := exists m ir M spec, well_made R w m ir M spec c /\ resp spec ir.
  Definition convs (c : K -> convolver A) : Prop :=
    exists m ir M spec new hist cur s past outs,
      well_made R w m ir M spec new /\ resp spec ir /\
      (forall k blocks, In blocks (hist k) -> blocks_of w blocks) /\ Forall related cur /\
      (forall k, feed_sessions (conv_process R) conv_reset new (hist k) = Ok (s k, past k)) /\
      (forall k, feed (conv_process R) (s k) (of_k cur k) = Ok (c k, outs k)) /\
      forall k, looks new (c k).

  Lemma related_blocks cur k : Forall related cur -> blocks_of w (of_k cur k).
  Proof.
    intros H b Hb. unfold of_k in Hb. apply in_map_iff in Hb as (f & <- & Hf). rewrite Forall_forall in H. destruct (H f Hf) as (m & H1 & _). now exists m.
  Qed.
  Lemma block_num m (b : audio A) : block_of w m b -> num_samples b = m.
  Proof. intros [H1 H2]. destruct b as [|c b]; [cbn in H1; lia|]. apply H2. now left. Qed.
  Lemma related_total cur k : Forall related cur -> total (of_k cur k) = total (of_k cur k0).
  Proof.
    intros H. induction H as [|b cur (m & Hb & _) _ IH]; [reflexivity|]. unfold total, of_k in *. cbn [map list_sum fold_right].
    change (num_samples (b k) + list_sum (map num_samples (map (fun b => b k) cur)) = num_samples (b k0) + list_sum (map num_samples (map (fun b => b k0) cur))).
    rewrite (block_num m (b k)), (block_num m (b k0)) by auto. now f_equal.
  Qed.
  Lemma channel_total (bs : list (audio A)) ch : blocks_of w bs -> ch < w -> length (channel ch bs) = total bs.
  Proof.
    intros H Hc. induction bs as [|b bs IH]; [reflexivity|]. unfold channel, total in *. cbn [map concat list_sum fold_right]. rewrite app_length.
    change (length (nth ch b []) + length (concat (map (fun b => nth ch b []) bs)) = num_samples b + list_sum (map num_samples bs)).
    rewrite IH by (intros x Hx; apply H; now right). destruct (H b) as (m & Hb); [now left|]. rewrite (block_num m b Hb). f_equal.
    destruct Hb as [H1 H2]. apply H2, nth_In. lia.
  Qed.
  (** the samples on a channel *)
  Lemma related_nth cur ch i : Forall related cur -> ch < w -> i < total (of_k cur k0) ->
    (forall x y, (forall k, x k = y k) -> irel ch x -> irel ch y) -> irel ch (fun k => nth i (channel ch (of_k cur k)) s0).
  Proof.
    intros H Hc. revert i. induction H as [|b cur (m & Hb & Hi) _ IH]; intros i Hlt HX; [cbn in Hlt; lia|].
    assert (HT : total (of_k (b :: cur) k0) = m + total (of_k cur k0)).
    { unfold total, of_k. cbn [map]. change (num_samples (b k0) + list_sum (map num_samples (map (fun b => b k0) cur)) = m + list_sum (map num_samples (map (fun b => b k0) cur))).
      now rewrite (block_num m). }
    assert (HL : forall k, length (nth ch (b k) []) = m) by (intros k; destruct (Hb k) as [N1 N2]; apply N2, nth_In; lia).
    destruct (Nat.lt_ge_cases i m) as [Him|Him].
    - eapply HX; [|exact (Hi ch i Hc Him)]. intros k. unfold of_k. cbn [map channel concat]. unfold channel. cbn [map concat]. rewrite app_nth1 by (rewrite HL; exact Him). reflexivity.
    - eapply HX; [|apply (IH (i - m)); [lia|exact HX]]. intros k. unfold of_k, channel. cbn [map concat]. rewrite app_nth2 by (rewrite HL; exact Him). now rewrite HL.
  Qed.

  Lemma feed_snocF c (bs : list (audio A)) b c1 outs : feed (conv_process R) c bs = Ok (c1, outs) ->
    feed (conv_process R) c (bs ++ [b]) = (' (c2, o) <- conv_process R c1 b ;; Ok (c2, outs ++ [o])).
  Proof.
    revert c outs. induction bs as [|x bs IH]; intros c outs E; cbn [feed app] in *.
    - injection E as <- <-. destruct (conv_process R c b) as [[c2 o]| |]; reflexivity.
    - destruct (conv_process R c x) as [[c2 o]| |]; cbn [bind] in *; try discriminate.
      destruct (feed (conv_process R) c2 bs) as [[c3 os]| |] eqn:E3; cbn [bind] in *; try discriminate. injection E as <- <-.
      rewrite (IH _ _ E3). destruct (conv_process R c3 b) as [[c4 o4]| |]; reflexivity.
  Qed.

  Lemma convs_process m0 c b : convs c -> blocks_rel w irel m0 b ->
    exists c' o, (forall k, conv_process R (c k) (b k) = Ok (c' k, o k)) /\ convs c' /\ blocks_rel w srel m0 o.
  Proof.
    intros (m & ir & M & spec & new & hist & cur & s & past & outs & HW & HS & Hh & Hcur & E1 & E2 & HL) Hb.
    assert (Hcb : Forall related (cur ++ [b])) by (apply Forall_app; split; auto; constructor; [now exists m0|constructor]).
    assert (Eof : forall k, of_k (cur ++ [b]) k = of_k cur k ++ [b k]) by (intros k; unfold of_k; now rewrite map_app).
    assert (X : forall k, exists p, conv_process R (c k) (b k) = Ok p /\
              routed w (length ir) (fun c => nth c ir []) (cs_in spec) (cs_out spec) (of_k (cur ++ [b]) k) (outs k ++ [snd p])).
    { intros k. destruct (well_made_routed L R HR w m ir M spec new HW (hist k ++ [of_k (cur ++ [b]) k])) as (s' & os & E & HF).
      { intros x Hx. apply in_app_iff in Hx as [Hx|[<-|[]]]; [now apply (Hh k)|now apply related_blocks]. }
      rewrite feed_sessions_app, E1 in E. cbn [bind feed_sessions] in E. rewrite Eof in E.
      rewrite (feed_snocF _ _ (b k) _ _ (E2 k)) in E. destruct (conv_process R (c k) (b k)) as [[c2 o2]| |]; cbn [bind] in E; try discriminate.
      exists (c2, o2). split; auto. injection E as _ <-. apply Forall2_app_inv_l in HF as (p & q & HFp & HFq & Epq).
      inversion HFq as [|? y ? q1 Hy HFq1]; subst. inversion HFq1; subst. apply app_inj_tail in Epq as [_ <-]. exact Hy. }
    destruct (okF (fun k => conv_process R (c k) (b k))) as (p & Hp); [intros k; destruct (X k) as (x & Hx & _); eauto|].
    exists (fun k => fst (p k)), (fun k => snd (p k)).
    assert (Y : forall k, routed w (length ir) (fun c => nth c ir []) (cs_in spec) (cs_out spec) (of_k (cur ++ [b]) k) (outs k ++ [snd (p k)])).
    { intros k. destruct (X k) as (x & Hx & H). rewrite Hp in Hx. injection Hx as <-. exact H. }
    assert (Bo : forall k, block_of w m0 (snd (p k))).
    { intros k. destruct (Y k) as (LO & HSh & _). rewrite Eof, !app_length in LO. cbn [length] in LO.
      destruct (HSh (length (of_k cur k))) as (m1 & K1 & K2); [rewrite Eof, app_length; cbn; lia|].
      rewrite Eof, app_nth2, Nat.sub_diag in K1 by lia. cbn in K1.
      rewrite app_nth2 in K2 by lia. replace (length (of_k cur k) - length (outs k)) with 0 in K2 by lia. cbn in K2.
      replace m0 with m1; auto. rewrite <- (block_num m1 (b k) K1). apply (block_num m0). apply Hb. }
    split; [intros k; rewrite Hp; now destruct (p k)|]. split.
    - exists m, ir, M, spec, new, hist, (cur ++ [b]), s, past, (fun k => outs k ++ [snd (p k)]).
      repeat (split; [assumption|]). split.
      + intros k. rewrite Eof, (feed_snocF _ _ (b k) _ _ (E2 k)), Hp. cbn [bind]. now destruct (p k).
      + intros k. specialize (Hp k). destruct (p k) as [c2 o2]. apply (process_looks R) in Hp. destruct (HL k), Hp. split; cbn; congruence.
    - split; [exact Bo|]. intros ch i Hch Hi.
      assert (HT : total (of_k (cur ++ [b]) k0) = total (of_k cur k0) + m0).
      { rewrite Eof. unfold total. rewrite map_app, list_sum_app. cbn. rewrite (block_num m0) by apply Hb. lia. }
      assert (RT : routes spec ir) by (destruct HW as (_ & _ & _ & _ & _ & _ & G1 & G2 & G3 & G4 & _); repeat split; auto).
      pose proof (Hresp spec ir (cur ++ [b]) HS RT Hcb ch (total (of_k cur k0) + i) Hch ltac:(lia)) as HG.
      eapply Hext; [|exact HG]. intros k. destruct (Y k) as (LO & HSh & HY). specialize (HY ch Hch). rewrite <- HY.
      assert (LT : length (channel ch (outs k)) = total (of_k cur k0)).
      { apply (f_equal (@length _)) in HY. unfold mixed in HY. rewrite tab_length, (channel_total (of_k (cur ++ [b]) k)) in HY by (auto; now apply related_blocks).
        rewrite (related_total (cur ++ [b]) k Hcb), HT in HY. unfold channel in HY. rewrite map_app, concat_app, app_length in HY. cbn [map concat] in HY. rewrite app_nil_r in HY.
        destruct (Bo k) as [N1 N2]. rewrite (N2 (nth ch (snd (p k)) [])) in HY by (apply nth_In; lia). apply Nat.add_cancel_r in HY. exact HY. }
      assert (EC : channel ch (outs k ++ [snd (p k)]) = channel ch (outs k) ++ nth ch (snd (p k)) []).
      { unfold channel. rewrite map_app, concat_app. cbn [map concat]. now rewrite app_nil_r. }
      rewrite EC, app_nth2 by (rewrite LT; lia).
      rewrite LT. replace (total (of_k cur k0) + i - total (of_k cur k0)) with i by lia. reflexivity.
  Qed.
  Lemma convs_new c : fresh c -> convs (fun _ => c).
  Proof.
    intros (m & ir & M & spec & HW & HS). exists m, ir, M, spec, c, (fun _ => []), [], (fun _ => c), (fun _ => []), (fun _ => []).
    split; auto. split; auto. split; [intros k bl []|]. split; [constructor|]. repeat split.
  Qed.
  Lemma convs_reset c : convs c -> convs (fun k => conv_reset (c k)).
  Proof.
    intros (m & ir & M & spec & new & hist & cur & s & past & outs & HW & HS & Hh & Hcur & E1 & E2 & HL).
    exists m, ir, M, spec, new, (fun k => hist k ++ [of_k cur k]), [], (fun k => conv_reset (c k)), (fun k => past k ++ [outs k]), (fun _ => []).
    split; auto. split; auto. split.
    - intros k bl Hbl. apply in_app_iff in Hbl as [Hbl|[<-|[]]]; [now apply (Hh k)|now apply related_blocks].
    - split; [constructor|]. split; [|split; [intros k; reflexivity|]].
      + intros k. rewrite feed_sessions_app, E1. cbn [bind feed_sessions]. rewrite E2. reflexivity.
      + intros k. exact (HL k).
  Qed.
  Lemma convs_looks c k : convs c -> looks (c k0) (c k).
  Proof.
    intros (m & ir & M & spec & new & hist & cur & s & past & outs & HW & HS & Hh & Hcur & E1 & E2 & HL).
    destruct (HL k), (HL k0). split; congruence.
  Qed.

  (** The engine: what is to be shown of the samples and of the levels. *)
  Variables (mixes : sample A -> sample A -> Prop) (scales : sample A -> Prop) (lev : fade_strategy -> smooth A -> smooth A -> Prop).
  Lemma real_family :
    (forall ch x, irel ch x -> srel ch x) ->
    (forall ch x y g g', srel ch x -> srel ch y -> mixes g g' -> srel ch (fun k => sadd (smul (x k) g) (smul (y k) g'))) ->
    (forall ch x g, srel ch x -> scales g -> srel ch (fun k => smul (x k) g)) ->
    (forall st i o, lev st (sm_set false i) (sm_set true o)) ->
    (forall st st' n i o, lev st i o -> lev st' (sm_set_target true (sm_reset n i)) (sm_set_target false (sm_reset n o))) ->
    (forall i o, lev kCrossfade i o -> (forall j, mixes (gain o j) (gain i j)) /\ forall m, lev kCrossfade (sm_iter m i) (sm_iter m o)) ->
    (forall i o, lev kInOut i o ->
      (forall j, scales (gain o j) /\ scales (gain i j)) /\ forall m, lev kInOut (sm_iter m i) o /\ lev kInOut i (sm_iter m o)) ->
    family_ok k0 (convolver_if R) w irel srel fresh convs mixes scales lev.
  Proof.
    intros H1 H2 H3 H4 H5 H6 H7. constructor; auto; cbn [cv cv_process cv_reset cv_samples cv_fade convolver_if].
    - exact convs_new.
    - exact convs_reset.
    - intros c k H. destruct (convs_looks c k H). congruence.
    - intros c k H. destruct (convs_looks c k H). congruence.
    - exact convs_process.
  Qed.
End Real.

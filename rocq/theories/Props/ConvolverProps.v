(** * C23-C27: the non-uniform convolver and the convolver with routing *)
From Verif.Model Require Import Base Arith ArithReal ArithMod Juce Float32 Partitioning
     UniformPartitionedConvolver TimeDistributedUPC TimeDistributedUPCMulti TimeDistributedNUPC Convolver.
From Verif.Spec Require Import Transform RealFFT Signal Routing.
From Verif.Proofs Require Import Lists ComplexAlg Blocks RealFFTProof Streams UPCProof NUPCProof ConvolverProof.
From Verif.Props Require Import UPCProps MultiProps PartitionProps.

(** C23.  [n] channels, internal blocks of any size [B] (the sizes with a table of partition
    schemes and any other). *)
Theorem C23_non_uniform_convolver : forall (A : arith), arith_laws A -> forall R, rfft_ok R ->
  forall n B m (ir : audio A),
  0 < n -> 0 < B -> 0 < length ir -> block_of (length ir) m ir -> 0 < m -> (Z.of_nat m <= 2 ^ 24)%Z ->
  exists nu, nupc_make R ir n B = Ok nu /\
             convolves n (response ir) (nupc_process R) nupc_reset nu.
Proof.
  intros A L R HR n B m ir Hn HB Hl Hsh Hm H24.
  destruct (nupc_make_ok L R HR n m ir Hn Hl Hsh Hm H24 B HB)
    as (nu & b & k & Ku & hu & ds & E & HBb & Hk & HF & HKu & Hds & Hst & HY).
  exists nu. split; auto.
  apply (convolves_gen L) with (N := m) (Inv := nst n b B k Ku hu ds).
  - intros c Hc. unfold response. destruct Hsh as [_ Hsh]. rewrite Hsh; auto.
    apply nth_In. apply Nat.mod_upper_bound. lia.
  - intros x T s len HT.
    destruct (nupc_process_ok L R HR n b B k Ku hu ds Hn HB HBb Hk HF HKu Hds x T s len HT) as (s' & E' & H').
    exists s'. split; auto. rewrite E'. do 2 f_equal. apply mk_ext. intros. apply HY.
  - intros x T s x' HT. eapply nupc_reset_ok; eauto.
  - exact Hst.
Qed.

Example C23_example :
  let ir : audio Zarith := [[1; 2; 3; 4; 5; 6; 7]; [7; 0; 0; 0; 1; 2; 3]]%Z in
  let ins : list (list (audio Zarith)) := [[[[1; 0; 2]; [1; 1; 1]; [3; 1; 4]]; [[5]; [6]; [7]]; [[1; 1; 1]; [0; 0; 2]; [9; 9; 9]]];
              [[[1; 2; 3; 4]; [4; 3; 2; 1]; [0; 0; 0; 8]]]]%Z in
  (u <- nupc_make ref_rfft ir 3 2 ;;
   ' (_, outs) <- feed_sessions (nupc_process ref_rfft) nupc_reset u ins ;;
   Ok (map (fun o => map (fun c => channel c o) [0; 1; 2]) outs))
  = Ok (map (fun i => map (fun c => convolve (response ir c) (channel c i)) [0; 1; 2]) ins).
Proof. vm_compute. reflexivity. Qed.

(** C24.  A response of [length ir] channels of [m] samples, blocks of [w] channels, routing
    entries within them. *)
Theorem C24_convolver : forall (A : arith), arith_laws A -> forall R, rfft_ok R ->
  forall w m (ir : audio A) maximum_block_size spec,
  let n := length ir in
  0 < w -> 0 < n -> block_of n m ir -> 0 < m -> (Z.of_nat m <= 2 ^ 24)%Z ->
  (requested (Z.of_nat maximum_block_size) (cs_internal spec) <= 2 ^ 30)%Z ->
  n <= length (cs_in spec) -> (forall i, In i (firstn n (cs_in spec)) -> i < w) ->
  n <= length (cs_out spec) -> (forall o, In o (firstn n (cs_out spec)) -> o < w) ->
  exists c, conv_make R ir maximum_block_size spec = Ok c /\
    convolves_routed w n (fun c => nth c ir []) (cs_in spec) (cs_out spec) (conv_process R) conv_reset c.
Proof.
  intros A L R HR w m ir M spec n Hw Hn Hsh Hm H24 HM Hi Hri Ho Hro.
  destruct (C18_block_size (Z.of_nat M) (cs_internal spec) HM) as (bz & e & Eb & He & He2 & _).
  assert (Hbz : (0 < bz)%Z) by (rewrite He; apply Z.pow_pos_nonneg; lia).
  set (B := Z.to_nat bz). assert (HB : 0 < B) by lia.
  destruct (nupc_make_ok L R HR n m ir Hn Hn Hsh Hm H24 B HB)
    as (nu & b & k & Ku & hu & ds & E & HBb & Hk & HF & HKu & Hds & Hst & HY).
  unfold conv_make. fold n. rewrite Eb. cbn [bind]. fold B. rewrite E. cbn [bind].
  eexists. split; [reflexivity|]. set (c := {| c_routing := _ |}).
  pose proof (nupc_process_ok L R HR n b B k Ku hu ds Hn HB HBb Hk HF HKu Hds) as HP.
  assert (HRs : forall x T nu x', nst n b B k Ku hu ds x T nu -> nst n b B k Ku hu ds x' 0 (nupc_reset nu)).
  { intros x T nu0 x' HT. eapply nupc_reset_ok; eauto. }
  intros sessions Hses.
  destruct (sessions_gen2 (conv_process R) conv_reset w (fun _ => True)
              (cst n B spec (nst n b B k Ku hu ds)) (Yr n spec (Y b B Ku hu ds)))
    with (sessions := sessions) (s := c) as (s' & outs & Ef & _ & HFo).
  - intros x T s k0 _ HT.
    destruct (conv_process_ok L R w n B spec Hn Hw HB Hi Ho Hri Hro _ _ HP x T s k0 HT) as (s' & E' & H'). eauto.
  - intros x T s x' HT. eapply conv_reset_ok; eauto.
  - intros x. unfold c. repeat split; auto. cbn [c_routing]. rewrite zeros_mk. eauto.
  - intros blocks Hb bl Hbl. destruct (Hses blocks Hb bl Hbl) as (k0 & H0). eauto.
  - exists s', outs. split; [exact Ef|]. eapply Forall2_mono; [|exact HFo].
    intros ins os (H1 & H2 & H3). split; auto. split.
    { intros i Hi'. destruct (H2 i Hi') as (k0 & _ & H0). eauto. }
    intros o Hoo. rewrite H3 by auto. unfold mixed. apply tab_ext. intros t Ht. unfold Yr.
    apply ssum_ext. intros ch Hc. destruct (Nat.eqb_spec (nth ch (cs_out spec) 0) o); auto.
    rewrite HY. set (i := nth ch (cs_in spec) 0).
    assert (Hiw : i < w) by exact (inp_ok w n B spec Hn Hw HB Hi Ho Hri ch Hc).
    assert (Hlen : forall q, q < w -> length (channel q ins) = length (channel o ins)).
    { assert (H2' : forall i, i < length ins -> exists k, block_of w k (nth i ins [])).
      { intros j Hj. destruct (H2 j Hj) as (k0 & _ & Hk0 & _). eauto. }
      clear - H2' Hoo. revert H2'. induction ins as [|bl ins IH]; intros H2 q Hq; auto.
      rewrite !channel_cons, !app_length. f_equal.
      - destruct (H2 0 (Nat.lt_0_succ _)) as (k0 & [HL Hb]). cbn [nth] in *.
        rewrite !Hb; auto; apply nth_In; lia.
      - apply IH; auto. intros j Hj. apply (H2 (S j)). cbn. lia. }
    unfold convolve. rewrite tab_nth by (rewrite Hlen; auto).
    pose proof (fir_list_conv L m (nth ch ir []) (chan_fun ins i) t (length (channel i ins))) as HFL.
    unfold ir_fun. fold n. rewrite Nat.mod_small by auto. rewrite HFL.
    + f_equal. symmetry. apply tab_of_list.
    + destruct Hsh as [_ Hsh]. rewrite Hsh; auto. apply nth_In. exact Hc.
    + rewrite Hlen; auto.
Qed.

Example C24_example :
  let ir : audio Zarith := [[1; 2; 3; 4; 5; 6; 7]; [7; 0; 0; 0; 1; 2; 3]; [1; 1; 1; 1; 1; 1; 1]]%Z in
  let spec := {| cs_in := [0; 2; 2]; cs_out := [1; 0; 1]; cs_fade := kCrossfade; cs_internal := Some 20%Z |} in
  let ins : list (list (audio Zarith)) := [[[[1; 0; 2]; [1; 1; 1]; [3; 1; 4]]; [[5]; [6]; [7]]; [[1; 1; 1]; [0; 0; 2]; [9; 9; 9]]];
              [[[1; 2; 3; 4]; [4; 3; 2; 1]; [0; 0; 0; 8]]]]%Z in
  (u <- conv_make fast_rfft ir 480 spec ;;
   ' (_, outs) <- feed_sessions (conv_process fast_rfft) conv_reset u ins ;;
   Ok (map (fun o => map (fun c => channel c o) [0; 1; 2]) outs))
  = Ok (map (fun i => map (mixed 3 (fun c => nth c ir []) (cs_in spec) (cs_out spec) i) [0; 1; 2]) ins).
Proof. vm_compute. reflexivity. Qed.

(** ** C25-C27 follow from the exact description of the output *)
Section Same.
  Context {A : arith}.

  (** a list of blocks is determined by its shapes and channels *)
  Lemma same_blocks n : forall (o1 o2 : list (audio A)), length o1 = length o2 ->
    (forall i, i < length o1 -> exists m, block_of n m (nth i o1 []) /\ block_of n m (nth i o2 [])) ->
    (forall c, c < n -> channel c o1 = channel c o2) -> o1 = o2.
  Proof.
    induction o1 as [|b1 o1 IH]; intros [|b2 o2] HL Hs Hc; try discriminate; auto.
    destruct (Hs 0 (Nat.lt_0_succ _)) as (m & [L1 S1] & [L2 S2]). cbn [nth] in *.
    assert (HH : forall c, c < n -> nth c b1 [] = nth c b2 [] /\ channel c o1 = channel c o2).
    { intros c Hcn. specialize (Hc c Hcn). rewrite !channel_cons in Hc.
      assert (length (nth c b1 []) = m) by (apply S1, nth_In; lia).
      assert (length (nth c b2 []) = m) by (apply S2, nth_In; lia).
      assert (E : firstn m (nth c b1 [] ++ channel c o1) = firstn m (nth c b2 [] ++ channel c o2)) by now rewrite Hc.
      rewrite !firstn_app in E. rewrite (firstn_all2 (nth c b1 [])), (firstn_all2 (nth c b2 [])) in E by lia.
      replace (m - length (nth c b1 [])) with 0 in E by lia. replace (m - length (nth c b2 [])) with 0 in E by lia.
      rewrite !firstn_O, !app_nil_r in E. split; auto. rewrite E in Hc. now apply app_inv_head in Hc. }
    f_equal.
    - apply list_ext with (d := []); [congruence|]. intros c Hcn. apply HH. lia.
    - apply IH; [cbn in HL; lia| |intros; now apply HH]. intros i Hi. apply (Hs (S i)). cbn. lia.
  Qed.

  Lemma block_of_det n m m' (b b1 b2 : audio A) :
    block_of n m b -> block_of n m' b -> block_of n m b1 -> block_of n m' b2 ->
    exists k, block_of n k b1 /\ block_of n k b2.
  Proof.
    intros [L1 S1] [L2 S2] H1 H2. destruct b as [|c b].
    - exists m. split; auto. destruct H2 as [L3 S3]. cbn in *. split; [lia|]. destruct b2; [|cbn in *; lia]. intros c [].
    - assert (m = m') by (rewrite <- (S1 c), <- (S2 c); auto; now left). subst. eauto.
  Qed.

  Lemma convolved_det n h (ins o1 o2 : list (audio A)) : convolved n h ins o1 -> convolved n h ins o2 -> o1 = o2.
  Proof.
    intros (L1 & S1 & C1) (L2 & S2 & C2). apply (same_blocks n); [congruence| |].
    - intros i Hi. destruct (S1 i) as (m & H1 & H2); [congruence|]. destruct (S2 i) as (m' & H3 & H4); [congruence|].
      exact (block_of_det _ _ _ _ _ _ H1 H3 H2 H4).
    - intros c Hc. now rewrite C1, C2.
  Qed.
  Lemma routed_det w n h inp out (ins o1 o2 : list (audio A)) :
    routed w n h inp out ins o1 -> routed w n h inp out ins o2 -> o1 = o2.
  Proof.
    intros (L1 & S1 & C1) (L2 & S2 & C2). apply (same_blocks w); [congruence| |].
    - intros i Hi. destruct (S1 i) as (m & H1 & H2); [congruence|]. destruct (S2 i) as (m' & H3 & H4); [congruence|].
      exact (block_of_det _ _ _ _ _ _ H1 H3 H2 H4).
    - intros c Hc. now rewrite C1, C2.
  Qed.
  Lemma late_det n m d h (ins o1 o2 : list (audio A)) :
    convolved_late n m d h ins o1 -> convolved_late n m d h ins o2 -> o1 = o2.
  Proof.
    intros (L1 & S1 & C1) (L2 & S2 & C2). apply (same_blocks n); [congruence| |].
    - intros i Hi. exists m. split; [apply S1|apply S2]; apply nth_In; congruence.
    - intros c Hc. now rewrite C1, C2.
  Qed.

  (** from a description of every session to [forgets] *)
  Lemma feed_sessions_app {St Bl} (process : St -> Bl -> res (St * Bl)) reset : forall a s b,
    feed_sessions process reset s (a ++ b)
    = (' (s1, o1) <- feed_sessions process reset s a ;;
       ' (s2, o2) <- feed_sessions process reset s1 b ;; Ok (s2, o1 ++ o2)).
  Proof.
    induction a as [|x a IH]; intros s b; cbn [app feed_sessions bind].
    - destruct (feed_sessions process reset s b) as [[]| |]; reflexivity.
    - destruct (feed process s x) as [[sx ox]| |]; cbn [bind]; auto. rewrite IH.
      destruct (feed_sessions process reset (reset sx) a) as [[sa oa]| |]; cbn [bind]; auto.
      destruct (feed_sessions process reset sa b) as [[sb ob]| |]; cbn [bind]; auto.
  Qed.

  Lemma forgets_gen {St Bl} (acceptable : Bl -> Prop) (process : St -> Bl -> res (St * Bl)) reset new
        (Rel : list Bl -> list Bl -> Prop) :
    (forall ins o1 o2, Rel ins o1 -> Rel ins o2 -> o1 = o2) ->
    (forall sessions, (forall blocks, In blocks sessions -> forall b, In b blocks -> acceptable b) ->
       exists s' outs, feed_sessions process reset new sessions = Ok (s', outs) /\ Forall2 Rel sessions outs) ->
    forgets acceptable process reset new.
  Proof.
    intros Hdet Hall hist Hh cur Hc blocks Hb.
    destruct (Hall [blocks]) as (n' & on & E2 & HF2); [intros ? [<-|[]]; auto|].
    destruct (Hall (hist ++ [cur; blocks])) as (s4 & o4 & E4 & HF4).
    { intros bl Hbl. apply in_app_iff in Hbl. destruct Hbl as [Hbl|[<-|[<-|F]]]; [now apply Hh|exact Hc|exact Hb|destruct F]. }
    rewrite feed_sessions_app in E4.
    destruct (feed_sessions process reset new hist) as [[s1 o1]| |] eqn:E1; cbn [bind] in E4; try discriminate.
    cbn [feed_sessions] in E4, E2.
    destruct (feed process s1 cur) as [[s2 o2]| |] eqn:F2; cbn [bind] in E4; try discriminate.
    destruct (feed process (reset s2) blocks) as [[s3 o3]| |] eqn:F3; cbn [bind] in E4; try discriminate.
    destruct (feed process new blocks) as [[s5 o5]| |] eqn:F5; cbn [bind] in E2; try discriminate.
    injection E4 as <- <-. injection E2 as <- <-.
    assert (R3 : Rel blocks o3).
    { apply Forall2_app_inv_l in HF4 as (p & q & HFp & HFq & Epq).
      inversion HFq as [|? y1 ? q1 _ HFq1]; subst. inversion HFq1 as [|? y2 ? q2 Hy Hq2]; subst. inversion Hq2; subst.
      replace (o1 ++ [o2; o3]) with ((o1 ++ [o2]) ++ [o3]) in Epq by (rewrite <- app_assoc; reflexivity).
      replace (p ++ [y1; y2]) with ((p ++ [y1]) ++ [y2]) in Epq by (rewrite <- app_assoc; reflexivity).
      apply app_inj_tail in Epq as [_ ->]. exact Hy. }
    inversion HF2; subst. rewrite (Hdet _ _ _ R3 H2) in *.
    repeat eexists; eauto.
  Qed.

  Lemma convolves_forgets {St} n h process reset (s : St) :
    convolves n h process reset s -> forgets (fun b : audio A => exists m, block_of n m b) process reset s.
  Proof. intros H. eapply forgets_gen; [apply convolved_det|exact H]. Qed.
End Same.

(** C26, for every class. *)
Theorem C26_reset_uniform : forall (A : arith), arith_laws A -> forall R, rfft_ok R ->
  forall n P m (ir : audio A),
  0 < n -> 0 < P -> 0 < length ir -> block_of (length ir) m ir -> 0 < m -> (Z.of_nat m <= 2 ^ 24)%Z ->
  exists u, upc_make R n P ir = Ok u /\
            forgets (fun b => exists m, block_of n m b) (upc_process R) upc_reset u.
Proof.
  intros A L R HR n P m ir Hn HP Hl Hsh Hm H24.
  destruct (C19_uniform_convolver A L R HR n P m ir) as (u & E & H); auto.
  exists u. split; auto. eapply convolves_forgets; eauto.
Qed.
Theorem C26_reset_time_distributed : forall (A : arith), arith_laws A ->
  forall b s nd off fc (h : list (sample A)) filters,
  let P := 2 ^ s * 2 ^ b in
  nd <= s -> off + 2 ^ (nd + 1) <= 2 ^ s ->
  0 < length filters -> length h <= length filters * P -> spectra_of P h fc filters ->
  forgets (fun bl => length bl = 2 ^ b) td_process td_reset (td_make (2 ^ b) (2 ^ s) filters fc off nd).
Proof.
  intros A L b s nd off fc h filters P H1 H2 H3 H4 H5.
  eapply forgets_gen; [|exact (C20_time_distributed A L b s nd off fc h filters H1 H2 H3 H4 H5)].
  cbv beta. intros ins o1 o2 (L1 & B1 & E1) (L2 & B2 & E2).
  assert (E : concat o1 = concat o2) by congruence. assert (HL : length o1 = length o2) by congruence.
  clear - B1 B2 E HL. revert o2 B2 E HL. induction o1 as [|a o1 IH]; intros [|c o2] B2 E HL; try discriminate; auto.
  cbn [concat] in E. assert (Ha : length a = 2 ^ b) by (apply B1; now left). assert (Hc : length c = 2 ^ b) by (apply B2; now left).
  assert (E' : firstn (2 ^ b) (a ++ concat o1) = firstn (2 ^ b) (c ++ concat o2)) by now rewrite E.
  rewrite !firstn_app, (firstn_all2 a), (firstn_all2 c), Ha, Hc, Nat.sub_diag, !firstn_O, !app_nil_r in E' by lia. subst c.
  f_equal. apply IH; [intros; apply B1; now right|intros; apply B2; now right|now apply app_inv_head in E|now injection HL].
Qed.
Theorem C26_reset_multi : forall (A : arith), arith_laws A ->
  forall n b s m (seg : audio A),
  0 < s -> 0 < length seg -> block_of (length seg) m seg -> 0 < m -> (Z.of_nat m <= 2 ^ 24)%Z ->
  exists mu, multi_make n (2 ^ b) (2 ^ s) seg = Ok mu /\
    forgets (block_of n (2 ^ b)) multi_process multi_reset mu.
Proof.
  intros A L n b s m seg H1 H2 H3 H4 H5.
  destruct (C21_multi_channel A L n b s m seg) as (mu & E & _ & _ & H); auto.
  exists mu. split; auto. eapply forgets_gen; [|exact H]. apply late_det.
Qed.
Theorem C26_reset_non_uniform : forall (A : arith), arith_laws A -> forall R, rfft_ok R ->
  forall n B m (ir : audio A),
  0 < n -> 0 < B -> 0 < length ir -> block_of (length ir) m ir -> 0 < m -> (Z.of_nat m <= 2 ^ 24)%Z ->
  exists nu, nupc_make R ir n B = Ok nu /\
             forgets (fun b => exists m, block_of n m b) (nupc_process R) nupc_reset nu.
Proof.
  intros A L R HR n P m ir Hn HP Hl Hsh Hm H24.
  destruct (C23_non_uniform_convolver A L R HR n P m ir) as (u & E & H); auto.
  exists u. split; auto. eapply convolves_forgets; eauto.
Qed.

(** What the remaining theorems assume of a convolver: it was constructed from a response of
    [n] channels of [m] samples, for blocks of [w] channels. *)
Definition well_made {A : arith} (R : rfft A) (w m : nat) (ir : audio A) (maximum_block_size : nat)
           (spec : conv_spec) (c : convolver A) : Prop :=
  let n := length ir in
  0 < w /\ 0 < n /\ block_of n m ir /\ 0 < m /\ (Z.of_nat m <= 2 ^ 24)%Z /\
  (requested (Z.of_nat maximum_block_size) (cs_internal spec) <= 2 ^ 30)%Z /\
  n <= length (cs_in spec) /\ (forall i, In i (firstn n (cs_in spec)) -> i < w) /\
  n <= length (cs_out spec) /\ (forall o, In o (firstn n (cs_out spec)) -> o < w) /\
  conv_make R ir maximum_block_size spec = Ok c.

Lemma well_made_routed {A : arith} (L : arith_laws A) (R : rfft A) (HR : rfft_ok R) w m ir M spec c :
  well_made R w m ir M spec c ->
  convolves_routed w (length ir) (fun c => nth c ir []) (cs_in spec) (cs_out spec) (conv_process R) conv_reset c.
Proof.
  intros (H1 & H2 & H3 & H4 & H5 & H6 & H7 & H8 & H9 & H10 & E).
  destruct (C24_convolver A L R HR w m ir M spec) as (c' & E' & H); auto.
  rewrite E' in E. injection E as ->. exact H.
Qed.

Theorem C26_reset_convolver : forall (A : arith), arith_laws A -> forall R, rfft_ok R ->
  forall w m (ir : audio A) maximum_block_size spec c,
  well_made R w m ir maximum_block_size spec c ->
  forgets (fun b => exists m, block_of w m b) (conv_process R) conv_reset c.
Proof.
  intros A L R HR w m ir M spec c H. eapply forgets_gen; [|exact (well_made_routed L R HR w m ir M spec c H)].
  apply routed_det.
Qed.

(** one session *)
Lemma routed_feed {A : arith} (L : arith_laws A) (R : rfft A) (HR : rfft_ok R) w m ir M spec c blocks :
  well_made R w m ir M spec c -> blocks_of w blocks ->
  exists c' outs, feed (conv_process R) c blocks = Ok (c', outs) /\
    routed w (length ir) (fun c => nth c ir []) (cs_in spec) (cs_out spec) blocks outs.
Proof.
  intros H Hb. destruct (well_made_routed L R HR w m ir M spec c H [blocks]) as (s & outs & E & HF).
  { intros ? [<-|[]]; auto. }
  cbn [feed_sessions] in E. destruct (feed (conv_process R) c blocks) as [[c' o]| |]; cbn [bind] in E; try discriminate.
  injection E as <- <-. exists c', o. split; auto. now inversion HF.
Qed.

(** C25. *)
Theorem C25_block_sizes_do_not_matter : forall (A : arith), arith_laws A -> forall R, rfft_ok R ->
  forall w m (ir : audio A) maximum_block_size spec c,
  well_made R w m ir maximum_block_size spec c ->
  forall blocks blocks', blocks_of w blocks -> blocks_of w blocks' ->
  (forall i, i < w -> channel i blocks = channel i blocks') ->
  exists c1 outs c2 outs', feed (conv_process R) c blocks = Ok (c1, outs) /\
    feed (conv_process R) c blocks' = Ok (c2, outs') /\
    forall o, o < w -> channel o outs = channel o outs'.
Proof.
  intros A L R HR w m ir M spec c H b1 b2 H1 H2 E.
  destruct (routed_feed L R HR w m ir M spec c b1 H H1) as (c1 & o1 & E1 & (_ & _ & C1)).
  destruct (routed_feed L R HR w m ir M spec c b2 H H2) as (c2 & o2 & E2 & (_ & _ & C2)).
  exists c1, o1, c2, o2. do 2 (split; auto). intros o Ho. rewrite C1, C2 by auto. unfold mixed.
  rewrite E by auto. apply tab_ext. intros t Ht. apply ssum_ext. intros q Hq.
  destruct (_ =? o); auto. rewrite E; auto.
  destruct H as (_ & Hn & _ & _ & _ & _ & Hl & Hi & _).
  apply Hi. replace (nth q (cs_in spec) 0) with (nth q (firstn (length ir) (cs_in spec)) 0).
  - apply nth_In. rewrite firstn_length. lia.
  - rewrite nth_firstn'. destruct (Nat.ltb_spec q (length ir)); auto. lia.
Qed.
(** the hypotheses can be met, over the real numbers *)
Lemma well_made_exists {A : arith} (L : arith_laws A) (R : rfft A) (HR : rfft_ok R) w m (ir : audio A) M spec :
  let n := length ir in
  0 < w -> 0 < n -> block_of n m ir -> 0 < m -> (Z.of_nat m <= 2 ^ 24)%Z ->
  (requested (Z.of_nat M) (cs_internal spec) <= 2 ^ 30)%Z ->
  n <= length (cs_in spec) -> (forall i, In i (firstn n (cs_in spec)) -> i < w) ->
  n <= length (cs_out spec) -> (forall o, In o (firstn n (cs_out spec)) -> o < w) ->
  exists c, well_made R w m ir M spec c.
Proof.
  intros n H1 H2 H3 H4 H5 H6 H7 H8 H9 H10.
  destruct (C24_convolver A L R HR w m ir M spec) as (c & E & _); auto.
  exists c. unfold well_made. repeat (split; auto).
Qed.
Example C25_hypotheses :
  let spec := {| cs_in := [0; 1]; cs_out := [1; 0]; cs_fade := kInOut; cs_internal := None |} in
  exists c, well_made (@fast_rfft Rarith) 2 5 (map (map Rdefinitions.IZR) [[1; 2; 3; 4; 5]; [7; 0; 1; 2; 3]]%Z) 16 spec c.
Proof.
  apply (well_made_exists Rarith_laws fast_rfft (fast_rfft_ok Rarith_laws)); cbn; try lia.
  split; auto. intros c H; repeat (destruct H as [<-|H]); try destruct H; reflexivity.
Qed.
Example C25_example :
  let ir : audio Zarith := [[1; 2; 3; 4; 5]; [7; 0; 1; 2; 3]]%Z in
  let spec := {| cs_in := [0; 1]; cs_out := [1; 0]; cs_fade := kInOut; cs_internal := None |} in
  let run (ins : list (audio Zarith)) :=
    c <- conv_make fast_rfft ir 16 spec ;; ' (_, outs) <- feed (conv_process fast_rfft) c ins ;;
    Ok (map (fun c => channel c outs) [0; 1]) in
  run [[[1; 0; 2]; [1; 1; 1]]; [[5]; [6]]; [[1; 1; 1]; [0; 0; 2]]]%Z
  = run [[[1; 0]; [1; 1]]; [[2; 5; 1; 1]; [1; 6; 0; 0]]; [[]; []]; [[1]; [2]]]%Z /\
  run [[[1; 0]; [1; 1]]; [[2; 5; 1; 1]; [1; 6; 0; 0]]; [[]; []]; [[1]; [2]]]%Z
  = Ok [[7; 7; 8; 45; 6; 11; 29]; [1; 2; 5; 13; 22; 26; 36]]%Z.
Proof. vm_compute. split; reflexivity. Qed.

(** ** C27 *)
Section Linear.
  Context {A : arith} (L : arith_laws A).
  Let Sring := law_ring A L.
  Add Ring sring : Sring.
  Notation S := (sample A).

  Lemma blocks_len w (ins : list (audio A)) : blocks_of w ins ->
    exists N, forall c, c < w -> length (channel c ins) = N.
  Proof.
    induction ins as [|b ins IH]; intros Hb; [exists 0; reflexivity|].
    destruct (Hb b (or_introl eq_refl)) as (m & HL & Hm).
    destruct IH as (N & HN); [intros ? ?; apply Hb; now right|]. exists (m + N). intros c Hc.
    rewrite channel_cons, app_length, HN by auto. f_equal. apply Hm, nth_In. lia.
  Qed.

  Lemma conv_at_ext (h x y : list S) t : (forall i, i <= t -> nth i x s0 = nth i y s0) ->
    conv_at h x t = conv_at h y t.
  Proof. intros H. apply ssum_ext. intros j Hj. now rewrite H by lia. Qed.

  Lemma conv_at_delay (h x : list S) d t :
    conv_at h (repeat s0 d ++ x) t = if t <? d then s0 else conv_at h x (t - d).
  Proof.
    unfold conv_at. destruct (Nat.ltb_spec t d).
    - transitivity (ssum (Datatypes.S t) (fun _ => @s0 A)); [|apply (ssum_0 L)]. apply ssum_ext. intros j Hj.
      rewrite app_nth1 by (rewrite repeat_length; lia). rewrite nth_repeat. ring.
    - rewrite (ssum_extend L (Datatypes.S (t - d)) (Datatypes.S t)).
      + apply ssum_ext. intros j Hj. rewrite app_nth2; rewrite repeat_length; [|lia]. do 2 f_equal. lia.
      + lia.
      + intros j Hj. rewrite app_nth1 by (rewrite repeat_length; lia). rewrite nth_repeat. ring.
  Qed.

  Lemma conv_at_linear (h x y z : list S) a b t :
    (forall i, i <= t -> nth i z s0 = sadd (smul a (nth i x s0)) (smul b (nth i y s0))) ->
    conv_at h z t = sadd (smul a (conv_at h x t)) (smul b (conv_at h y t)).
  Proof.
    intros H. unfold conv_at. rewrite <- !(ssum_mul_l L), <- (ssum_add L). apply ssum_ext. intros j Hj.
    rewrite H by lia. ring.
  Qed.

  Lemma comb_zero (a b : S) : s0 = sadd (smul a s0) (smul b s0).
  Proof. ring. Qed.
  Lemma tab_const {T} k (v : T) : tab k (fun _ => v) = repeat v k.
  Proof. induction k; auto. rewrite tab_S. cbn. now f_equal. Qed.
  Lemma nth_repeat' {T} (v d : T) k : forall j, j < k -> nth j (repeat v k) d = v.
  Proof. induction k; intros [|j] Hj; cbn; try lia; auto. apply IHk. lia. Qed.
  Lemma conv_at_one (x : list S) k t : conv_at (s1 :: repeat s0 k) x t = nth t x s0.
  Proof.
    unfold conv_at. rewrite (ssum_single L (Datatypes.S t) 0); [|lia|].
    - rewrite Nat.sub_0_r. cbn [nth]. ring.
    - intros [|j] Hj Hne; [lia|]. cbn [nth]. rewrite nth_repeat. ring.
  Qed.

  Variables (w m M : nat) (R : rfft A) (HR : rfft_ok R) (ir : audio A) (spec : conv_spec) (c : convolver A).
  Hypothesis Hc : well_made R w m ir M spec c.
  Notation n := (length ir).
  Notation mix := (mixed n (fun c => nth c ir []) (cs_in spec) (cs_out spec)).

  Lemma inp_w q : q < n -> nth q (cs_in spec) 0 < w.
  Proof.
    intros Hq. destruct Hc as (_ & Hn & _ & _ & _ & _ & Hl & Hi & _).
    apply Hi. replace (nth q (cs_in spec) 0) with (nth q (firstn n (cs_in spec)) 0).
    - apply nth_In. rewrite firstn_length. lia.
    - rewrite nth_firstn'. destruct (Nat.ltb_spec q n); auto. lia.
  Qed.

  Lemma mix_eq (ins : list (audio A)) N o : (forall c, c < w -> length (channel c ins) = N) -> o < w ->
    mix ins o = tab N (fun t => ssum n (fun q => if nth q (cs_out spec) 0 =? o
                  then conv_at (nth q ir []) (channel (nth q (cs_in spec) 0) ins) t else s0)).
  Proof.
    intros HN Ho. unfold mixed. rewrite HN by auto. apply tab_ext. intros t Ht. apply ssum_ext. intros q Hq.
    destruct (_ =? o); auto. unfold convolve. rewrite tab_nth; auto. rewrite HN; auto. now apply inp_w.
  Qed.
End Linear.

(** [a u + b v], sample by sample *)
Definition combination {A : arith} (a b : sample A) (u v : list (sample A)) : list (sample A) :=
  tab (length u) (fun t => sadd (smul a (nth t u s0)) (smul b (nth t v s0))).

(** C27, linearity.  The three streams may be cut into blocks differently. *)
Theorem C27_linear : forall (A : arith), arith_laws A -> forall R, rfft_ok R ->
  forall w m (ir : audio A) maximum_block_size spec c,
  well_made R w m ir maximum_block_size spec c ->
  forall a b xs ys zs, blocks_of w xs -> blocks_of w ys -> blocks_of w zs ->
  (forall i, i < w -> length (channel i ys) = length (channel i xs)) ->
  (forall i, i < w -> channel i zs = combination a b (channel i xs) (channel i ys)) ->
  exists c1 xo c2 yo c3 zo,
    feed (conv_process R) c xs = Ok (c1, xo) /\ feed (conv_process R) c ys = Ok (c2, yo) /\
    feed (conv_process R) c zs = Ok (c3, zo) /\
    forall o, o < w -> channel o zo = combination a b (channel o xo) (channel o yo).
Proof.
  intros A L R HR w m ir M spec c H a b xs ys zs Hx Hy Hz HL E.
  destruct (routed_feed L R HR w m ir M spec c xs H Hx) as (c1 & xo & E1 & (_ & _ & C1)).
  destruct (routed_feed L R HR w m ir M spec c ys H Hy) as (c2 & yo & E2 & (_ & _ & C2)).
  destruct (routed_feed L R HR w m ir M spec c zs H Hz) as (c3 & zo & E3 & (_ & _ & C3)).
  exists c1, xo, c2, yo, c3, zo. do 3 (split; auto). intros o Ho.
  destruct (blocks_len w xs Hx) as (N & HN).
  assert (HNy : forall c, c < w -> length (channel c ys) = N) by (intros; rewrite HL; auto).
  assert (HNz : forall c, c < w -> length (channel c zs) = N).
  { intros q Hq. rewrite E by auto. unfold combination. rewrite tab_length. auto. }
  rewrite C1, C2, C3 by auto.
  rewrite (mix_eq w m M R ir spec c H xs N o), (mix_eq w m M R ir spec c H ys N o), (mix_eq w m M R ir spec c H zs N o) by auto.
  unfold combination. rewrite tab_length. apply tab_ext. intros t Ht. rewrite !tab_nth by auto.
  rewrite <- !(ssum_mul_l L), <- (ssum_add L). apply ssum_ext. intros q Hq.
  destruct (_ =? o).
  - apply (conv_at_linear L). intros i Hi. pose proof (inp_w w m M R ir spec c H q Hq) as Hiw.
    rewrite E by auto. unfold combination. rewrite tab_nth by (rewrite HN; auto; lia). reflexivity.
  - exact (comb_zero L a b).
Qed.

(** C27, causality: where two inputs agree up to time [T], so do the outputs. *)
Theorem C27_causal : forall (A : arith), arith_laws A -> forall R, rfft_ok R ->
  forall w m (ir : audio A) maximum_block_size spec c,
  well_made R w m ir maximum_block_size spec c ->
  forall T xs ys, blocks_of w xs -> blocks_of w ys ->
  (forall i, i < w -> firstn T (channel i xs) = firstn T (channel i ys)) ->
  exists c1 xo c2 yo,
    feed (conv_process R) c xs = Ok (c1, xo) /\ feed (conv_process R) c ys = Ok (c2, yo) /\
    forall o, o < w -> firstn T (channel o xo) = firstn T (channel o yo).
Proof.
  intros A L R HR w m ir M spec c H T xs ys Hx Hy E.
  destruct (routed_feed L R HR w m ir M spec c xs H Hx) as (c1 & xo & E1 & (_ & _ & C1)).
  destruct (routed_feed L R HR w m ir M spec c ys H Hy) as (c2 & yo & E2 & (_ & _ & C2)).
  exists c1, xo, c2, yo. do 2 (split; auto). intros o Ho.
  destruct (blocks_len w xs Hx) as (N & HN). destruct (blocks_len w ys Hy) as (N' & HN').
  assert (EN : Nat.min T N = Nat.min T N').
  { rewrite <- (HN o), <- (HN' o), <- !firstn_length, E by auto. reflexivity. }
  rewrite C1, C2 by auto.
  rewrite (mix_eq w m M R ir spec c H xs N o), (mix_eq w m M R ir spec c H ys N' o) by auto.
  rewrite !tab_firstn, EN. apply tab_ext. intros t Ht. apply ssum_ext. intros q Hq.
  destruct (_ =? o); auto. apply conv_at_ext. intros i Hi.
  pose proof (inp_w w m M R ir spec c H q Hq) as Hiw.
  assert (HT : forall l : list (sample A), nth i l s0 = nth i (firstn T l) s0).
  { intros l. rewrite nth_firstn'. destruct (Nat.ltb_spec i T); auto. lia. }
  rewrite (HT (channel _ xs)), (HT (channel _ ys)), E; auto.
Qed.

(** C27, time invariance: [d] samples of silence in front of the input put [d] samples of
    silence in front of the output and change nothing else. *)
Theorem C27_time_invariant : forall (A : arith), arith_laws A -> forall R, rfft_ok R ->
  forall w m (ir : audio A) maximum_block_size spec c,
  well_made R w m ir maximum_block_size spec c ->
  forall d xs ys, blocks_of w xs -> blocks_of w ys ->
  (forall i, i < w -> channel i ys = repeat s0 d ++ channel i xs) ->
  exists c1 xo c2 yo,
    feed (conv_process R) c xs = Ok (c1, xo) /\ feed (conv_process R) c ys = Ok (c2, yo) /\
    forall o, o < w -> channel o yo = repeat s0 d ++ channel o xo.
Proof.
  intros A L R HR w m ir M spec c H d xs ys Hx Hy E.
  destruct (routed_feed L R HR w m ir M spec c xs H Hx) as (c1 & xo & E1 & (_ & _ & C1)).
  destruct (routed_feed L R HR w m ir M spec c ys H Hy) as (c2 & yo & E2 & (_ & _ & C2)).
  exists c1, xo, c2, yo. do 2 (split; auto). intros o Ho.
  destruct (blocks_len w xs Hx) as (N & HN).
  assert (HN' : forall c, c < w -> length (channel c ys) = d + N).
  { intros q Hq. rewrite E, app_length, repeat_length, HN; auto. }
  rewrite C1, C2 by auto.
  rewrite (mix_eq w m M R ir spec c H xs N o), (mix_eq w m M R ir spec c H ys (d + N) o) by auto.
  rewrite tab_app. f_equal.
  - rewrite <- (tab_const d s0). apply tab_ext. intros t Ht.
    transitivity (ssum (length ir) (fun _ => @s0 A)); [|apply (ssum_0 L)]. apply ssum_ext. intros q Hq. destruct (_ =? o); auto.
    rewrite E by (now apply (inp_w w m M R ir spec c H)). rewrite (conv_at_delay L).
    destruct (Nat.ltb_spec t d); auto. lia.
  - apply tab_ext. intros t Ht. apply ssum_ext. intros q Hq. destruct (_ =? o); auto.
    rewrite E by (now apply (inp_w w m M R ir spec c H)). rewrite (conv_at_delay L).
    destruct (Nat.ltb_spec (d + t) d); [lia|]. f_equal. lia.
Qed.

(** C27, identity: unit impulses, each channel routed back to itself, no channel twice.  The
    channels named by the routing come out as they went in, the others silent. *)
Theorem C27_identity : forall (A : arith), arith_laws A -> forall R, rfft_ok R ->
  forall w n k maximum_block_size spec c,
  let ir : audio A := repeat (s1 :: repeat s0 k) n in
  well_made R w (Datatypes.S k) ir maximum_block_size spec c ->
  cs_in spec = cs_out spec -> NoDup (firstn n (cs_out spec)) ->
  forall xs, blocks_of w xs ->
  exists c1 xo, feed (conv_process R) c xs = Ok (c1, xo) /\
    forall o, o < w ->
      (In o (firstn n (cs_out spec)) -> channel o xo = channel o xs) /\
      (~ In o (firstn n (cs_out spec)) -> channel o xo = repeat s0 (length (channel o xs))).
Proof.
  intros A L R HR w n k M spec c ir H Es Hnd xs Hx.
  destruct (routed_feed L R HR w (Datatypes.S k) ir M spec c xs H Hx) as (c1 & xo & E1 & (_ & _ & C1)).
  exists c1, xo. split; auto. intros o Ho.
  destruct (blocks_len w xs Hx) as (N & HN).
  rewrite C1 by auto. rewrite (mix_eq w (Datatypes.S k) M R ir spec c H xs N o), HN by auto.
  assert (Hlen : length ir = n) by apply repeat_length. rewrite Hlen.
  assert (Hout : n <= length (cs_out spec)).
  { destruct H as (_ & _ & _ & _ & _ & _ & _ & _ & H & _). now rewrite Hlen in H. }
  assert (Hnth : forall q, q < n -> nth q (firstn n (cs_out spec)) 0 = nth q (cs_out spec) 0).
  { intros q Hq. rewrite nth_firstn'. destruct (Nat.ltb_spec q n); auto. lia. }
  assert (HLf : length (firstn n (cs_out spec)) = n) by (rewrite firstn_length; lia).
  split; intros Hin.
  - destruct (In_nth _ _ 0 Hin) as (j & Hj & Ej). rewrite HLf in Hj.
    rewrite (tab_of_list (channel o xs) s0), HN by auto. apply tab_ext. intros t Ht.
    rewrite (ssum_single L n j).
    + rewrite <- (Hnth j Hj), Ej, Nat.eqb_refl, Es, <- (Hnth j Hj), Ej.
      unfold ir. rewrite nth_repeat' by auto. apply (conv_at_one L).
    + exact Hj.
    + intros q Hq Hqj. destruct (Nat.eqb_spec (nth q (cs_out spec) 0) o) as [Eo|]; auto.
      exfalso. apply Hqj. apply (proj1 (NoDup_nth (firstn n (cs_out spec)) 0) Hnd q j); try (rewrite HLf; auto).
      rewrite Hnth, Eo; auto.
  - rewrite <- (tab_const N s0). apply tab_ext. intros t Ht.
    transitivity (ssum n (fun _ => @s0 A)); [|apply (ssum_0 L)]. apply ssum_ext. intros q Hq.
    destruct (Nat.eqb_spec (nth q (cs_out spec) 0) o) as [Eo|]; auto.
    exfalso. apply Hin. rewrite <- Eo, <- (Hnth q Hq). apply nth_In. lia.
Qed.

Example C27_hypotheses :
  let spec := {| cs_in := [0; 2]; cs_out := [0; 2]; cs_fade := kInOut; cs_internal := None |} in
  exists c, well_made (@fast_rfft Rarith) 3 4 (repeat (s1 :: repeat s0 3) 2) 16 spec c.
Proof.
  apply (well_made_exists Rarith_laws fast_rfft (fast_rfft_ok Rarith_laws)); cbn; try lia.
  split; auto. intros c H; repeat (destruct H as [<-|H]); try destruct H; reflexivity.
Qed.

Print Assumptions C23_non_uniform_convolver.
Print Assumptions C24_convolver.
Print Assumptions C25_block_sizes_do_not_matter.
Print Assumptions C26_reset_uniform.
Print Assumptions C26_reset_time_distributed.
Print Assumptions C26_reset_multi.
Print Assumptions C26_reset_non_uniform.
Print Assumptions C26_reset_convolver.
Print Assumptions C27_linear.
Print Assumptions C27_causal.
Print Assumptions C27_time_invariant.
Print Assumptions C27_identity.

(** * C52, C53: from LoadIR to what is heard *)
From Coq Require Import ZArith Sorted.
From Verif.Model Require Import Base Arith ArithReal ArithMod Juce Float32 SmoothedValue Partitioning
     UniformPartitionedConvolver TimeDistributedNUPC Convolver ConvolutionEngine Loader.
From Verif.Spec Require Import Transform RealFFT Signal Routing Engine Loading Together.
From Verif.Proofs Require Import ComplexAlg Lists Blocks Streams FloatProof FadeProof FadeExact RealFFTProof SmoothProof EngineProof EngineInv EngineFront
     EngineCalm EngineRoom EngineRun EngineFade EngineMore EngineLevels EngineOrigin LoaderProof LoaderFate LoaderMore LoaderTrace LoaderLive.
From Verif.Props Require Import PartitionProps ConvolverProps EngineProps FadeProps SwitchProps WholeProps LoaderProps.

(** ** C52 *)
(** Whatever the convolvers: some time after the last delivery, process does what the convolver
    delivered last (since the last Clear) does, after it was fed the blocks of the last [history] sessions, each
    ended by a reset, and the most recent blocks [past]. *)
Theorem C52_convolver_in_charge : forall (A : arith) (I : conv_if A) w ok, 0 < w -> accepting I w ok ->
  forall env l s e b, reached I w ok env l s e -> unhurried (eng_new I env) l -> no_loads e -> engine_bounds s = Ok b ->
  forall i, latest None (e_log I e) = Some i ->
  forall bs, fits w (ps_max_block s) bs -> settling_time b (ps_max_block s) <= total bs ->
  exists e' outs, eng_run I e (map (Process I) bs) = Ok (e', outs) /\
  exists h0 history past c couts, delivers env l h0 /\ h_id I h0 = i /\
    ending past (blocks_in I l ++ bs) /\ (forall x, In x history -> forall y, In y x -> In y (blocks_in I l ++ bs)) /\
    feed_sessions (cv_process I) (cv_reset I) (h_cv I h0) history = Ok (c, couts) /\
    forall bs', fits w (ps_max_block s) bs' -> exists e'' outs' c' pouts,
      eng_run I e' (map (Process I) bs') = Ok (e'', outs') /\
      feed (cv_process I) c (past ++ bs') = Ok (c', pouts ++ outs') /\ length pouts = length past.
Proof.
  intros A I w ok Hw HI env l s e b HR Hu Hn Eb i Hi bs Hf Ht.
  pose proof HR as (He & Hl & Hs & o0 & E0).
  pose proof (reached_good I w ok Hw HI env l s e HR Hu) as HG.
  destruct (settles I w ok Hw HI s e bs HG Hn Hf b Eb Ht) as (e' & outs & E & HG' & Hn' & Ha & HL & _).
  rewrite Hi in HL. exists e', outs. split; auto.
  set (D := delivers env l).
  assert (HJ : jnv I D (blocks_in I l) e).
  { change (blocks_in I l) with ([] ++ blocks_in I l).
    apply (jnv_run I w ok Hw HI D l None [] (eng_new I env) e o0); auto.
    - exact (proj1 (good_new I w ok env He)).
    - intros a Ha1 h Hh. right. eauto.
    - apply jnv_new. intros a Ha1 h Hh. left. eauto. }
  destruct (reached_tracked I w ok Hw HI env l s e HR) as (Hsp & bd & Ebd & Hin).
  assert (HJ' : jnv I D (blocks_in I l ++ blocks_in I (map (Process I) bs)) e').
  { apply (jnv_run I w ok Hw HI D (map (Process I) bs) (Some s) (blocks_in I l) e e' outs); auto.
    - split; auto. exists bd. auto.
    - clear - Hf. cbn [option_map]. induction bs as [|x bs IH]; [exact Logic.I|]. cbn [map legal]. split.
      + destruct (Hf x (or_introl eq_refl)) as (m & Hm & Hb). exists (ps_max_block s), m. auto.
      + apply IH. intros y Hy. apply Hf. now right.
    - intros a Ha1. apply in_map_iff in Ha1 as (x & Hx & _). discriminate. }
  assert (EB : blocks_in I (map (Process I) bs) = bs).
  { clear. unfold blocks_in. induction bs as [|x bs IH]; [reflexivity|]. cbn [map flat_map app]. now rewrite IH. }
  rewrite EB in HJ'. destruct HJ' as (_ & HF).
  destruct (e_conv I e') as [h|] eqn:Ec; [|discriminate HL]. assert (Hid : h_id I h = i) by (cbn in HL; now injection HL as <-).
  destruct HF as (_ & _ & _ & HC). destruct Ha as (A1 & A2 & A3).
  destruct (HC (or_introl A1) h Ec) as (h0 & history & past & H1 & (H2 & c & o1 & o2 & F1 & F2) & H3 & H4).
  exists h0, history, past, c, o1. split; auto. split; [congruence|]. split; auto. split; auto. split; auto.
  intros bs' Hf'. destruct HG' as ((_ & bd' & Ebd' & Hi') & _).
  assert (Hal : alone I e') by (repeat split; auto).
  destruct (alone_plays I w ok Hw HI (ps_max_block s) bd' e' (proj1 (proj2 Hsp)) Hi' Hn' Hal bs' Hf') as (e'' & outs' & E'' & G).
  rewrite Ec in G. destruct G as (c' & G). exists e'', outs', c', o2. split; auto. split.
  - rewrite feed_split, F2. cbn [bind]. rewrite G. reflexivity.
  - clear - F2. revert c o2 F2. generalize (h_cv I h). induction past as [|x past IH]; intros ch c o2 F; cbn [feed] in F; [now injection F as _ <-|].
    destruct (cv_process I c x) as [[c1 y]| |]; cbn [bind] in F; try discriminate.
    destruct (feed (cv_process I) c1 past) as [[c2 ys]| |] eqn:G; cbn [bind] in F; try discriminate. injection F as _ <-. cbn [length]. f_equal. eapply IH; eauto.
Qed.

(** A response of [m] samples no longer remembers what came in more than [m] samples ago. *)
Section Tail.
  Context {A : arith} (L : arith_laws A).
  Notation S := (sample A).
  Let Sring := law_ring A L.
  Add Ring sring : Sring.
  Lemma conv_at_recent (h a x : list S) t : length h <= t -> conv_at h (a ++ x) (length a + t) = conv_at h x t.
  Proof.
    intros Ht. unfold conv_at. rewrite (ssum_extend L (length h) (Datatypes.S (length a + t))), (ssum_extend L (length h) (Datatypes.S t)); try lia.
    - apply ssum_ext. intros j Hj. f_equal. rewrite app_nth2 by lia. f_equal. lia.
    - intros j Hj. rewrite nth_overflow by lia. ring.
    - intros j Hj. rewrite nth_overflow by lia. ring.
  Qed.
  Lemma channel_total w c (bs : list (audio A)) : c < w -> blocks_of w bs -> length (channel c bs) = total bs.
  Proof.
    intros Hc. induction bs as [|b bs IH]; intros H; [reflexivity|]. rewrite channel_cons, app_length, IH by (intros x Hx; apply H; now right).
    unfold total. cbn [map list_sum fold_right]. f_equal. destruct (H b (or_introl eq_refl)) as (m & H1 & H2).
    rewrite (H2 (nth c b [])) by (apply nth_In; lia). destruct b as [|y b]; [cbn in H1; lia|]. cbn [num_samples]. symmetry. apply H2. now left.
  Qed.
  Lemma mixed_recent w n (ir : audio A) inputs outputs (pre bs : list (audio A)) m o : blocks_of w pre -> blocks_of w bs ->
    (forall c, c < n -> length (nth c ir []) <= m) -> (forall c, c < n -> nth c inputs 0 < w) -> o < w ->
    skipn m (mixed n (fun c => nth c ir []) inputs outputs bs o) =
    skipn (total pre + m) (mixed n (fun c => nth c ir []) inputs outputs (pre ++ bs) o).
  Proof.
    intros Hp Hb Hm Hin Ho. unfold mixed. rewrite !tab_skipn, channel_app, app_length, (channel_total w o pre) by auto.
    replace (total pre + length (channel o bs) - (total pre + m)) with (length (channel o bs) - m) by lia.
    apply tab_ext. intros t Ht. apply ssum_ext. intros c Hc. destruct (nth c outputs 0 =? o); auto.
    assert (E : length (channel o bs) = length (channel (nth c inputs 0) bs)) by (rewrite !(channel_total w) by auto; reflexivity).
    pose proof (channel_total w (nth c inputs 0) pre (Hin c Hc) Hp) as EP. specialize (Hm c Hc).
    unfold convolve. rewrite tab_nth by lia. rewrite tab_nth by (rewrite channel_app, app_length; lia).
    rewrite channel_app. rewrite <- EP, <- Nat.add_assoc. symmetry. apply conv_at_recent. lia.
  Qed.
End Tail.

Lemma ending_blocks {A : arith} w (xs ys : list (audio A)) : ending ys xs -> blocks_of w xs -> exists pre, xs = pre ++ ys /\ blocks_of w pre /\ blocks_of w ys.
Proof.
  intros [pre ->] H. exists pre. split; auto. split; intros b Hb; apply H; apply in_app_iff; auto.
Qed.
Lemma fits_blocks {A : arith} w M (bs : list (audio A)) : fits w M bs -> blocks_of w bs.
Proof. intros H b Hb. destruct (H b Hb) as (m & _ & K). eauto. Qed.
Lemma legal_blocks {A : arith} (I : conv_if A) w ok l : forall p, legal I w ok p l -> blocks_of w (blocks_in I l).
Proof.
  induction l as [|o l IH]; intros p H b Hb; [destruct Hb|]. unfold blocks_in in Hb. cbn [flat_map] in Hb. apply in_app_iff in Hb.
  destruct o as [s|x| | |a]; cbn [legal] in H; destruct H as [H1 H2]; (destruct Hb as [Hb|Hb]; [|eapply IH; eauto]); try destruct Hb as [<- | []]; try destruct Hb.
  destruct H1 as (M & m & _ & _ & K). eauto.
Qed.
Lemma channel_length {A : arith} w (ins outs : list (audio A)) : length outs = length ins ->
  (forall i, i < length ins -> exists m, block_of w m (nth i ins []) /\ block_of w m (nth i outs [])) -> blocks_of w outs.
Proof.
  intros HL H b Hb. destruct (In_nth _ _ [] Hb) as (i & Hi & <-). destruct (H i) as (m & _ & K); [rewrite <- HL; exact Hi|]. eauto.
Qed.

(** With the real convolvers.  [m] samples after that, what comes out is the convolution of everything that
    was ever passed to process with the response of the convolver delivered last, [m] samples long, mixed as its
    routing says. *)
Theorem C52_last_response_is_heard : forall (A : arith), arith_laws A -> forall R : rfft A, rfft_ok R ->
  let I := convolver_if R in
  forall w, 0 < w -> forall env l s e b outs0,
  legal I w (fun _ => True) None l -> last_spec None l = Some s -> eng_run I (eng_new I env) l = Ok (e, outs0) ->
  (forall h, delivers env l h -> exists m ir M sp, well_made R w m ir M sp (h_cv I h)) ->
  unhurried (eng_new I env) l -> no_loads e -> engine_bounds s = Ok b ->
  forall i, latest None (e_log I e) = Some i ->
  forall bs, fits w (ps_max_block s) bs -> settling_time b (ps_max_block s) <= total bs ->
  exists h0, delivers env l h0 /\ h_id I h0 = i /\
  forall m ir M sp, well_made R w m ir M sp (h_cv I h0) ->
  forall bs', fits w (ps_max_block s) bs' -> exists e' outs outs',
    eng_run I e (map (Process I) (bs ++ bs')) = Ok (e', outs ++ outs') /\ length outs = length bs /\ length outs' = length bs' /\
    forall o, o < w ->
      skipn m (channel o outs') =
      skipn (total (blocks_in I l ++ bs) + m) (mixed (length ir) (fun c => nth c ir []) (cs_in sp) (cs_out sp) (blocks_in I l ++ bs ++ bs') o).
Proof.
  intros A L R HR I w Hw env l s e b outs0 Hl Hs E0 HD Hu Hn Eb i Hi bs Hf Ht.
  assert (HI := C46_convolvers_are_accepting A L R HR w).
  assert (HD' : forall h, delivers env l h -> used R w (h_cv I h)).
  { intros h Hh. destruct (HD h Hh) as (m & ir & M & sp & W). eapply used_new; eauto. }
  assert (HR0 : reached I w (@used A R w) env l s e).
  { split; [|split; [|split; eauto]].
    - apply Forall_forall. intros a Ha h Hh. apply HD'. left. eauto.
    - clear - Hl HD'. assert (X : forall a, In (Others I a) l -> delivers_ok I (@used A R w) a).
      { intros a Ha h Hh. apply HD'. right. eauto. }
      clear HD'. revert Hl X. generalize (@None nat). induction l as [|o l IH]; intros p Hl X; [exact Logic.I|].
      destruct o; cbn [legal] in *; destruct Hl as [H1 H2]; (split; [|apply IH; auto; intros a Ha; apply X; now right]); auto. apply X. now left. }
  destruct (C52_convolver_in_charge A I w (@used A R w) Hw HI env l s e b HR0 Hu Hn Eb i Hi bs Hf Ht)
    as (e' & outs & E & h0 & hist & past & c & couts & D0 & Hid & Hend & Hin & Fs & HP).
  exists h0. split; auto. split; auto. intros m ir M sp W bs' Hf'.
  destruct (HP bs' Hf') as (e'' & outs' & c' & pouts & E'' & Ff & Lp).
  exists e'', outs, outs'. split; [rewrite map_app, (EngineRun.run_app I), E; cbn [bind]; rewrite E''; reflexivity|].
  assert (RL : forall x e1 e2 os, eng_run I e1 (map (Process I) x) = Ok (e2, os) -> length os = length x).
  { clear. induction x as [|y x IH]; intros e1 e2 os X; cbn [map eng_run eng_step] in X; [now injection X as _ <-|].
    destruct (eng_process I e1 y) as [[e3 o]| |]; cbn [bind] in X; try discriminate.
    destruct (eng_run I e3 (map (Process I) x)) as [[e4 os']| |] eqn:X'; cbn [bind] in X; try discriminate. injection X as <- <-.
    cbn [app length]. f_equal. eapply IH; eauto. }
  split; [eapply RL; eauto|]. split; [eapply RL; eauto|]. intros o Ho.
  pose proof (legal_blocks I w _ l None Hl) as Bl. pose proof (fits_blocks w _ bs Hf) as Bbs. pose proof (fits_blocks w _ bs' Hf') as Bbs'.
  assert (Ball : blocks_of w (blocks_in I l ++ bs)) by (intros x Hx; apply in_app_iff in Hx as [Hx|Hx]; auto).
  destruct (ending_blocks w _ past Hend Ball) as (pre & Epre & Bpre & Bpast).
  assert (Bpb : blocks_of w (past ++ bs')) by (intros x Hx; apply in_app_iff in Hx as [Hx|Hx]; auto).
  destruct (well_made_routed L R HR w m ir M sp (h_cv I h0) W (hist ++ [past ++ bs'])) as (s' & so & ES & HF).
  { intros x Hx. apply in_app_iff in Hx as [Hx|[<-|[]]]; auto. intros y Hy. apply Ball. eapply Hin; eauto. }
  change (feed_sessions (cv_process I) (cv_reset I) (h_cv I h0) (hist ++ [past ++ bs']) = Ok (s', so)) in ES.
  rewrite sessions_app in ES. rewrite Fs in ES. cbn [bind feed_sessions] in ES. rewrite Ff in ES. cbn [bind] in ES. injection ES as _ <-.
  apply Forall2_app_inv_l in HF as (p & q & HFp & HFq & Epq). inversion HFq as [|? y ? q1 Hy HFq1]; subst. inversion HFq1; subst.
  apply app_inj_tail in Epq as [_ <-]. destruct Hy as (HL & HS & HC). specialize (HC o Ho).
  pose proof (channel_length w _ _ HL HS) as Bo.
  assert (Bp : blocks_of w pouts) by (intros x Hx; apply Bo; apply in_app_iff; auto).
  assert (Tp : length (channel o pouts) = total past).
  { rewrite <- (channel_total w o past) by auto. rewrite channel_app in HC.
    assert (Z : forall k, k <= length past -> length (channel o (firstn k pouts)) = length (channel o (firstn k past))).
    { induction k as [|k IHk]; intros Hk; [reflexivity|].
      assert (FS : forall (x : list (audio A)), k < length x -> firstn (S k) x = firstn k x ++ [nth k x []]).
      { clear. induction k as [|k IH]; intros [|y x] H; cbn in H; try lia; [reflexivity|]. cbn [firstn nth app]. f_equal. apply IH. lia. }
      rewrite !FS, !channel_app, !app_length, IHk by lia. f_equal.
      destruct (HS k) as (mm & (P1 & P2) & (P3 & P4)); [rewrite app_length; lia|]. rewrite !app_nth1 in * by lia.
      unfold channel. cbn [map concat]. rewrite !app_nil_r. rewrite (P2 (nth o (nth k past []) [])), (P4 (nth o (nth k pouts []) [])); auto; apply nth_In; lia. }
    specialize (Z (length past) (le_n _)). rewrite firstn_all in Z. rewrite <- Lp, firstn_all in Z. exact Z. }
  assert (EO : channel o outs' = skipn (total past) (mixed (length ir) (fun c => nth c ir []) (cs_in sp) (cs_out sp) (past ++ bs') o)).
  { rewrite <- HC, channel_app, skipn_app, Tp, Nat.sub_diag, skipn_all2 by lia. reflexivity. }
  pose proof W as (_ & Hlen & (_ & Hbl) & _ & _ & _ & Hci & Hcin & _).
  rewrite EO, app_assoc, Epre, <- app_assoc.
  assert (TT : total (pre ++ past) = total pre + total past) by (unfold total; rewrite map_app; apply list_sum_app).
  rewrite TT. replace (total pre + total past + m) with ((total pre + m) + total past) by lia.
  rewrite <- (skipn_skipn' _ (total past) (total pre + m)), <- (mixed_recent L w (length ir) ir (cs_in sp) (cs_out sp) pre (past ++ bs') m o Bpre Bpb); auto.
  - rewrite !skipn_skipn'. f_equal. lia.
  - intros q Hq. rewrite (Hbl (nth q ir [])) by (now apply nth_In). lia.
  - intros q Hq. apply Hcin. replace (nth q (cs_in sp) 0) with (nth q (firstn (length ir) (cs_in sp)) 0).
    + apply nth_In. rewrite firstn_length. lia.
    + rewrite nth_firstn'. destruct (Nat.ltb_spec q (length ir)); auto. lia.
Qed.

(** ** C53 *)
(** The arguments of LoadIR and of prepare from which a convolver can be made, for blocks of [w] channels:
    a response of 1 to 2^24 samples, routed from and to channels below [w]. *)
Definition loadable {A : arith} (w : nat) (r : audio A * conv_spec) (p : process_spec) : Prop :=
  let '(ir, sp) := r in let n := length ir in
  0 < n /\ (exists m, block_of n m ir /\ 0 < m /\ (Z.of_nat m <= 2 ^ 24)%Z) /\
  (requested (Z.of_nat (ps_max_block p)) (cs_internal sp) <= 2 ^ 30)%Z /\
  n <= length (cs_in sp) /\ (forall i, In i (firstn n (cs_in sp)) -> i < w) /\
  n <= length (cs_out sp) /\ (forall o, In o (firstn n (cs_out sp)) -> o < w).
Lemma loadable_made {A : arith} (R : rfft A) w ir sp p c : 0 < w -> loadable w (ir, sp) p -> convolver_build R (ir, sp) p = Ok c ->
  exists m, block_of (length ir) m ir /\ well_made R w m ir (ps_max_block p) sp c.
Proof.
  intros Hw (H1 & (m & H2 & H3 & H4) & H5 & H6 & H7 & H8 & H9) E. exists m. split; auto. repeat split; auto; apply H2.
Qed.
Lemma last_prepared_in {request conv : Type} e (tr tr' : list (event request conv)) p : last_prepared e tr = Some p -> In p (prepared e (tr ++ tr')).
Proof.
  unfold last_prepared, prepared. rewrite flat_map_app. intros H. apply in_app_iff. left.
  apply in_rev. destruct (rev _) as [|x y]; [discriminate|]. injection H as ->. now left.
Qed.

Lemma latest_delivered log1 id log2 : ~ In ClearCalled log2 -> (forall j, ~ In (Delivered j) log2) -> forall c, latest c (log1 ++ Delivered id :: log2) = Some id.
Proof.
  intros H1 H2 c. rewrite latest_app. cbn [latest]. revert H1 H2. generalize (Some id). clear.
  intros x. revert x. induction log2 as [|y log2 IH]; intros x H1 H2; [reflexivity|].
  destruct y as [j|j|th j|]; cbn [latest]; try (apply IH; [intros X; apply H1; now right|intros k X; apply (H2 k); now right]).
  - destruct (H2 j). now left.
  - destruct H1. now left.
Qed.

(** The part of it that is not about sound: the convolver delivered last is the one of that LoadIR call, made of its
    arguments. *)
Lemma load_in_charge {A : arith} (R : rfft A) : let I := convolver_if R in
  forall workers ms st tr, load_run (convolver_build R) workers load_new ms = Ok (st, tr) -> quiescent st ->
  forall tr1 t id en ir sp tr2, tr = tr1 ++ Began t id en (ir, sp) :: tr2 -> began en tr2 = [] -> last_prepared en tr1 <> None ->
  (forall id' e', In (Cancelled id' e') tr2 -> id' = id) ->
  forall w, 0 < w -> forall env l eng,
  @same_execution A I (audio A * conv_spec) en tr env l (e_log I eng) ->
  (forall t' id' r p, In (Began t' id' en r) tr -> In p (prepares l) -> loadable w r p) ->
  ~ In (Rejected id) (e_log I eng) -> (forall log1 log2, e_log I eng = log1 ++ Delivered id :: log2 -> ~ In ClearCalled log2) ->
  latest None (e_log I eng) = Some id /\
  (forall h, delivers env l h -> exists m ir M sp, well_made R w m ir M sp (h_cv I h)) /\
  forall h, delivers env l h -> h_id I h = id ->
    exists m p, block_of (length ir) m ir /\ In p (prepares l) /\ well_made R w m ir (ps_max_block p) sp (h_cv I h).
Proof.
  intros I workers ms st tr ER HQ tr1 t id en ir sp tr2 Etr Hlast Hprep Hc w Hw env l eng (X1 & X2 & X3) HLd HRj HCl.
  change (handed_over (e_log I eng) = @pushed (audio A * conv_spec) (convolver A) en tr) in X2.
  change (prepares l = @prepared (audio A * conv_spec) (convolver A) en tr) in X3.
  destruct (C41_delivered _ _ ms st tr ER HQ tr1 t id en (ir, sp) tr2 Etr Hprep Hc) as [(c & p & HP & _) _].
  assert (HB : In (Began t id en (ir, sp)) tr) by (rewrite Etr; apply in_elt).
  destruct (C40_in_order _ _ ms st tr en ER) as (S1 & S2 & S3).
  assert (Hlb : last_began en tr = Some id) by (rewrite Etr; now apply last_began_of).
  (* what was pushed was made of its arguments *)
  assert (HM : forall h, delivers env l h -> exists t' r p, In (Began t' (h_id I h) en r) tr /\ In p (prepares l) /\ loadable w r p /\ convolver_build R r p = Ok (h_cv I h)).
  { intros h Hh. apply X1 in Hh. destruct (C49_built_from _ _ ms st tr ER _ _ _ Hh) as (t' & r & p' & y1 & y2 & y3 & Ey & Hlp & Hb).
    exists t', r, p'. assert (In (Began t' (h_id I h) en r) tr) by (rewrite Ey; apply in_elt). split; auto.
    assert (HPl : In p' (prepares l)); [|split; [exact HPl|split; [|exact Hb]]; apply (HLd t' (h_id I h)); auto]. rewrite X3, Ey. replace (y1 ++ Began t' (h_id I h) en r :: y2 ++ Queued (h_id I h) en :: y3)
      with ((y1 ++ Began t' (h_id I h) en r :: y2) ++ Queued (h_id I h) en :: y3) by (rewrite <- app_assoc; reflexivity). now apply last_prepared_in. }
  (* it was the last to be delivered *)
  assert (HI : In id (handed_over (e_log I eng))) by (rewrite X2; apply in_pushed; exists c; rewrite Etr; apply in_app_iff; right; now right).
  assert (HLt : latest None (e_log I eng) = Some id).
  { unfold handed_over in HI. apply in_flat_map in HI as (x & Hx & Hi). destruct x as [j|j|th j|]; try destruct Hi as [->|[]]; try destruct Hi; [|now destruct HRj].
    apply in_split in Hx as (log1 & log2 & EL). rewrite EL. apply latest_delivered; [eapply HCl; eauto|].
    intros j Hj. assert (HS : StronglySorted lt (handed_over log1 ++ id :: handed_over log2)).
    { rewrite <- X2, EL in S2. rewrite handed_app in S2. exact S2. }
    assert (Hj2 : In j (handed_over log2)) by (unfold handed_over; apply in_flat_map; exists (Delivered j); split; auto; now left).
    assert (id < j).
    { clear - HS Hj2. induction (handed_over log1) as [|a x IH]; cbn [app] in HS; apply StronglySorted_inv in HS as [H1 H2]; auto.
      rewrite Forall_forall in H2. auto. }
    assert (j <= id); [|lia]. apply (sorted_last _ _ _ S1 Hlb). apply S3. rewrite <- X2, EL, handed_app. apply in_app_iff. right. now right. }
  split; [exact HLt|]. split.
  { intros h Hh. destruct (HM h Hh) as (t' & [ir' sp'] & p' & _ & _ & Hld & Hb). destruct (loadable_made R w ir' sp' p' _ Hw Hld Hb) as (m & _ & W). eauto 6. }
  intros h D0 Hid. destruct (HM h D0) as (t' & r' & p' & HB' & HPl & Hld & Hb). rewrite Hid in HB'.
  destruct (all_reached _ _ _ _ _ ER) as (_ & _ & HFl & _). destruct (f_unique _ _ HFl _ _ _ _ _ _ _ HB' HB) as [_ ->].
  destruct (loadable_made R w ir sp p' _ Hw Hld Hb) as (m & Hm & W). exists m, p'. auto.
Qed.

(** The whole path.  [tr] is what happened in the loader: LoadIR was called (load number [id], the last one on
    engine [en]) after a prepare, nobody cancelled it, and nothing is going on any more.  [env], [l], [eng] are the
    history and the state of that engine.  The command queue accepted the convolver and Clear was not called since.
    Then, the settling time and [m] samples later, what is heard is the convolution of everything passed to
    process with the response passed to that LoadIR call, [m] samples long, mixed as its arguments say. *)
Theorem C53_from_LoadIR_to_sound : forall (A : arith), arith_laws A -> forall R : rfft A, rfft_ok R ->
  let I := convolver_if R in
  forall workers ms st tr, load_run (convolver_build R) workers load_new ms = Ok (st, tr) -> quiescent st ->
  forall tr1 t id en ir sp tr2, tr = tr1 ++ Began t id en (ir, sp) :: tr2 -> began en tr2 = [] -> last_prepared en tr1 <> None ->
  (forall id' e', In (Cancelled id' e') tr2 -> id' = id) ->
  forall w, 0 < w -> forall env l s eng b outs0,
  legal I w (fun _ => True) None l -> last_spec None l = Some s -> eng_run I (eng_new I env) l = Ok (eng, outs0) ->
  unhurried (eng_new I env) l -> no_loads eng -> engine_bounds s = Ok b ->
  @same_execution A I (audio A * conv_spec) en tr env l (e_log I eng) ->
  (forall t' id' r p, In (Began t' id' en r) tr -> In p (prepares l) -> loadable w r p) ->
  ~ In (Rejected id) (e_log I eng) -> (forall log1 log2, e_log I eng = log1 ++ Delivered id :: log2 -> ~ In ClearCalled log2) ->
  forall bs bs', fits w (ps_max_block s) bs -> fits w (ps_max_block s) bs' -> settling_time b (ps_max_block s) <= total bs ->
  exists m eng' outs outs', block_of (length ir) m ir /\
    eng_run I eng (map (Process I) (bs ++ bs')) = Ok (eng', outs ++ outs') /\ length outs = length bs /\ length outs' = length bs' /\
    forall o, o < w ->
      skipn m (channel o outs') =
      skipn (total (blocks_in I l ++ bs) + m) (mixed (length ir) (fun c => nth c ir []) (cs_in sp) (cs_out sp) (blocks_in I l ++ bs ++ bs') o).
Proof.
  intros A L R HR I workers ms st tr ER HQ tr1 t id en ir sp tr2 Etr Hlast Hprep Hc w Hw env l s eng b outs0 Hl Hs E0 Hu Hn Eb
         HX HLd HRj HCl bs bs' Hf Hf' Ht.
  destruct (load_in_charge R workers ms st tr ER HQ tr1 t id en ir sp tr2 Etr Hlast Hprep Hc w Hw env l eng HX HLd HRj HCl) as (HLt & HWM & HMade).
  destruct (C52_last_response_is_heard A L R HR w Hw env l s eng b outs0 Hl Hs E0) with (i := id) (bs := bs) as (h0 & D0 & Hid & HH); auto.
  destruct (HMade h0 D0 Hid) as (m & p & Hm & _ & W).
  destruct (HH m ir _ sp W bs' Hf') as (e' & outs & outs' & Q1 & Q2 & Q3 & Q4). exists m, e', outs, outs'. auto.
Qed.

(** ** Examples *)
(** prepare, one LoadIR call, Clear or not, one job; and the engine that was handed its convolver *)
Section OneLoad.
  Context {request conv : Type} (build : request -> process_spec -> res conv) (r : request) (p : process_spec) (c : conv).
  Hypothesis Hb : build r p = Ok c.
  Definition one_load (cleared : bool) : list (move request) :=
    [CallPrepare 0 p; Preparing 0; CallLoadIR 3 0 r] ++ repeat (StepCaller 3) 7 ++ (if cleared then [CallReset 0] else []) ++
    repeat (StepWorker 0) 9 ++ [Message].
  Definition one_trace (cleared : bool) : list (event request conv) :=
    [Prepared 0 p; ResetDone 0 false] ++ Began 3 0 0 r :: [Cancelled 0 0; Notified 0 true; Queued 0 0; Returned 3 0 0] ++
    (if cleared then [ResetDone 0 true] else []) ++ [Pushed 0 0 c; Notified 0 false].
  Lemma step_ok s m ms s' x : load_move build 1 s m = Ok (s', x) -> load_run build 1 s (m :: ms) = (' (s'', xs) <- load_run build 1 s' ms ;; Ok (s'', x ++ xs)).
  Proof. intros E. cbn [load_run]. rewrite E. reflexivity. Qed.
  Lemma one_load_run cleared : exists st, load_run build 1 load_new (one_load cleared) = Ok (st, one_trace cleared) /\ quiescent st.
  Proof.
    destruct cleared; unfold one_load; cbn [repeat app].
    - do 12 (erewrite step_ok; [|vm_compute; reflexivity]). erewrite step_ok; [|cbn; rewrite Hb; reflexivity].
      do 8 (erewrite step_ok; [|vm_compute; reflexivity]). cbn [load_run bind]. eexists. split; [reflexivity|].
      split; [|split]; [intros [|[|[|[|t]]]]|intros [|t]|]; reflexivity.
    - do 11 (erewrite step_ok; [|vm_compute; reflexivity]). erewrite step_ok; [|cbn; rewrite Hb; reflexivity].
      do 8 (erewrite step_ok; [|vm_compute; reflexivity]). cbn [load_run bind]. eexists. split; [reflexivity|].
      split; [|split]; [intros [|[|[|[|t]]]]|intros [|t]|]; reflexivity.
  Qed.
End OneLoad.
Definition one_history {A : arith} (I : conv_if A) (cleared : bool) (s : process_spec) (h : held I) : list (op I) :=
  Prepare I s :: (if cleared then [Clear I] else []) ++ [Others I [Deliver I h]].
Lemma one_delivery {A : arith} (I : conv_if A) cleared s b h : engine_bounds s = Ok b ->
  exists e, eng_run I (eng_new I []) (one_history I cleared s h) = Ok (e, []) /\
    e_log I e = (if cleared then [ClearCalled] else []) ++ [Delivered (h_id I h)] /\ e_env I e = [].
Proof.
  intros Eb. destruct cleared; eexists; (split; [|split]); try (unfold one_history; cbn [eng_run eng_step app]; unfold eng_prepare; rewrite Eb; vm_compute; reflexivity); vm_compute; reflexivity.
Qed.
Lemma one_delivers {A : arith} (I : conv_if A) cleared s (h h' : held I) : delivers [] (one_history I cleared s h) h' -> h' = h.
Proof.
  intros [(a & Ha & _)|(a & Ha & Hh)]; [destruct Ha|].
  assert (a = [Deliver I h]) as ->.
  { unfold one_history in Ha. destruct Ha as [Ha|Ha]; [discriminate|]. apply in_app_iff in Ha as [Ha|[Ha|[]]]; [|now injection Ha as <-].
    destruct cleared; [destruct Ha as [Ha|[]]; discriminate|destruct Ha]. }
  destruct Hh as [Hh|[]]. now injection Hh as <-.
Qed.
Lemma one_traced {request conv : Type} (r : request) p (c : conv) cleared :
  (forall t' id' r', In (Began t' id' 0 r') (one_trace r p c cleared) -> r' = r) /\ In (Pushed 0 0 c) (one_trace r p c cleared) /\
  pushed 0 (one_trace r p c cleared) = [0] /\ prepared 0 (one_trace r p c cleared) = [p].
Proof.
  unfold one_trace. split; [|split; [|split; destruct cleared; reflexivity]].
  - intros t' id' r' HB. destruct cleared; cbn [app] in HB; repeat destruct HB as [HB|HB]; try discriminate HB; first [now injection HB as _ _ <- | destruct HB].
  - apply in_app_iff. right. right. apply in_app_iff. right. apply in_app_iff. right. now left.
Qed.
Lemma one_unhurried {A : arith} (I : conv_if A) cleared s h b : engine_bounds s = Ok b -> unhurried (eng_new I []) (one_history I cleared s h).
Proof.
  intros Eb l1 o l2 e1 outs E Hr E1. assert (HL : l1 = [] \/ l1 = [Prepare I s]).
  { destruct l1 as [|x1 l1]; [now left|right]. injection E as <- E. clear E1. revert E.
    destruct cleared; cbn [app]; intros E; (destruct l1 as [|x2 l1]; [reflexivity|]).
    - injection E as _ E. destruct l1 as [|x3 l1]; [injection E as <- _; destruct Hr|]. destruct l1; discriminate.
    - destruct l1; discriminate. }
  destruct HL as [-> | ->].
  - injection E1 as <- _. cbn. lia.
  - cbn [eng_run eng_step] in E1. unfold eng_prepare in E1. rewrite Eb in E1. vm_compute in E1. injection E1 as <- _. cbn. lia.
Qed.

(** One load, with or without a call of Clear after LoadIR has returned and before the job is done: it meets the
    hypotheses of C53, in any arithmetic. *)
Lemma one_load_meets {A : arith} (R : rfft A) (ir : audio A) n cleared c :
  let I := convolver_if R in
  let sp := {| cs_in := [0; 1]; cs_out := [1; 0]; cs_fade := kCrossfade; cs_internal := None |} in
  let s := {| ps_rate_num := 44100; ps_rate_den := 1; ps_max_block := 64; ps_channels := 2 |} in
  let b := {| lower_fade_bound := 4410; upper_fade_bound := 176400; max_crossfade_ir_length := 441000; in_out_fade_length := 17640 |} in
  length ir = 2 -> well_made R 2 n ir 64 sp c ->
  let h := {| h_id := 0; h_cv := c : cv I |} in
  let tr := one_trace (ir, sp) s c cleared in
  let l := one_history I cleared s h in
  let tr2 := [Cancelled 0 0; Notified 0 true; Queued 0 0; Returned 3 0 0] ++ (if cleared then [ResetDone 0 true] else []) ++ [Pushed 0 0 c; Notified 0 false] in
  engine_bounds s = Ok b /\
  exists st eng, load_run (convolver_build R) 1 load_new (one_load (ir, sp) s cleared) = Ok (st, tr) /\ quiescent st /\
    tr = [Prepared 0 s; ResetDone 0 false] ++ Began 3 0 0 (ir, sp) :: tr2 /\ began 0 tr2 = [] /\
    (forall id' e', In (Cancelled id' e') tr2 -> id' = 0) /\
    legal I 2 (fun _ => True) None l /\ last_spec None l = Some s /\ eng_run I (eng_new I []) l = Ok (eng, []) /\
    unhurried (eng_new I []) l /\ no_loads eng /\
    @same_execution A I _ 0 tr [] l (e_log I eng) /\
    (forall t' id' r p, In (Began t' id' 0 r) tr -> In p (prepares l) -> loadable 2 r p) /\
    ~ In (Rejected 0) (e_log I eng) /\ (forall log1 log2, e_log I eng = log1 ++ Delivered 0 :: log2 -> ~ In ClearCalled log2) /\
    blocks_in I l = [] /\ prepares l = [s].
Proof.
  intros I sp s b E2 Hc h tr l tr2. assert (Eb : engine_bounds s = Ok b) by (vm_compute; reflexivity). split; [exact Eb|].
  pose proof Hc as (_ & _ & Hir & Hn & Hn24 & _ & _ & _ & _ & _ & Hb).
  assert (Hb' : convolver_build R (ir, sp) s = Ok c) by exact Hb.
  destruct (one_load_run (convolver_build R) (ir, sp) s c Hb' cleared) as (st & ER & HQ).
  destruct (one_delivery I cleared s b h Eb) as (eng & E0 & EL & EE).
  assert (HS : @same_execution A I _ 0 (one_trace (ir, sp) s c cleared) [] (one_history I cleared s h) (e_log I eng)).
  { split; [|split].
    - intros h' Hh. rewrite (one_delivers I cleared s h h' Hh). apply (one_traced (ir, sp) s c cleared).
    - rewrite EL. transitivity [0]; [destruct cleared; reflexivity|]. symmetry. apply (one_traced (ir, sp) s c cleared).
    - transitivity [s]; [destruct cleared; reflexivity|]. symmetry. apply (one_traced (ir, sp) s c cleared). }
  exists st, eng. split; [exact ER|]. split; [exact HQ|].
  split; [destruct cleared; reflexivity|]. split; [destruct cleared; reflexivity|]. split.
  { intros id' e' H. clear - H. unfold tr2 in H. destruct cleared; cbn [app] in H; repeat destruct H as [H|H]; try discriminate H; first [now injection H as <- _ | destruct H]. }
  split. { unfold l, one_history. cbn [legal]. split; [unfold spec_ok, rate_ok; cbn; lia|]. destruct cleared; cbn [app legal]; [split; [discriminate|]|]; (split; [|exact Logic.I]); intros x _; exact Logic.I. }
  split; [destruct cleared; reflexivity|]. split; [exact E0|]. split; [eapply one_unhurried; eauto|].
  split. { unfold no_loads. intros x Hx. change (In x (e_env I eng)) in Hx. rewrite EE in Hx. destruct Hx. }
  split; [exact HS|]. split.
  { intros t' id' r p HB HP. assert (r = (ir, sp)) as -> by (eapply (one_traced (ir, sp) s c cleared); exact HB).
    assert (p = s) as -> by (destruct cleared; destruct HP as [<-|[]]; reflexivity).
    cbn [loadable]. rewrite !E2. rewrite E2 in Hir. split; [lia|]. split; [exists n; auto|].
    split; [vm_compute; discriminate|]. cbn. repeat split; try lia. }
  split. { rewrite EL. clear. intros H. destruct cleared; repeat destruct H as [H|H]; first [discriminate H | destruct H]. }
  split; [|destruct cleared; split; reflexivity].
  intros log1 log2 H X. rewrite EL in H. destruct cleared; cbn [app] in H.
  - destruct log1 as [|x [|y log1]]; [discriminate H|injection H as _ <-; destruct X|destruct log1; discriminate H].
  - destruct log1 as [|x log1]; [injection H as <-; destruct X|destruct log1; discriminate H].
Qed.
Lemma one_load_heard {A : arith} (L : arith_laws A) (R : rfft A) (HR : rfft_ok R) (ir : audio A) n cleared : block_of 2 n ir -> 0 < n -> (Z.of_nat n <= 2 ^ 24)%Z ->
  let I := convolver_if R in
  let sp := {| cs_in := [0; 1]; cs_out := [1; 0]; cs_fade := kCrossfade; cs_internal := None |} in
  let s := {| ps_rate_num := 44100; ps_rate_den := 1; ps_max_block := 64; ps_channels := 2 |} in
  let b := {| lower_fade_bound := 4410; upper_fade_bound := 176400; max_crossfade_ir_length := 441000; in_out_fade_length := 17640 |} in
  exists st c eng, load_run (convolver_build R) 1 load_new (one_load (ir, sp) s cleared) = Ok (st, one_trace (ir, sp) s c cleared) /\
  let l := one_history I cleared s {| h_id := 0; h_cv := c : cv I |} in
  eng_run I (eng_new I []) l = Ok (eng, []) /\ @same_execution A I _ 0 (one_trace (ir, sp) s c cleared) [] l (e_log I eng) /\
  forall bs bs', fits 2 64 bs -> fits 2 64 bs' -> settling_time b 64 <= total bs ->
  exists eng' outs outs',
    eng_run I eng (map (Process I) (bs ++ bs')) = Ok (eng', outs ++ outs') /\ length outs = length bs /\ length outs' = length bs' /\
    forall o, o < 2 ->
      skipn n (channel o outs') = skipn (total bs + n) (mixed 2 (fun c => nth c ir []) [0; 1] [1; 0] (bs ++ bs') o).
Proof.
  intros Hir Hn Hn24 I sp s b. assert (E2 : length ir = 2) by apply Hir.
  assert (HW : exists c, well_made R 2 n ir 64 sp c).
  { apply (well_made_exists L R HR); rewrite ?E2; try exact Hir; try exact Hn24; cbn; lia. }
  destruct HW as (c & Hc).
  destruct (one_load_meets R ir n cleared c E2 Hc) as (Eb & st & eng & ER & HQ & Et & T1 & T2 & Hl & Hs & E0 & Hu & Hnl & HS & HLd & HRj & HCl & EB & _).
  exists st, c, eng. split; [exact ER|]. split; [exact E0|]. split; [exact HS|]. intros bs bs' Hf Hf' Ht.
  destruct (C53_from_LoadIR_to_sound A L R HR 1 _ st _ ER HQ [Prepared 0 s; ResetDone 0 false] 3 0 0 ir sp _ Et T1 ltac:(intros X; discriminate X) T2
              2 ltac:(lia) [] _ s eng b [] Hl Hs E0 Hu Hnl Eb HS HLd HRj HCl bs bs' Hf Hf' Ht) as (m & eng' & outs & outs' & Hm & Q1 & Q2 & Q3 & Q4).
  assert (m = n) as ->.
  { rewrite <- (proj2 Hm (nth 0 ir [])), <- (proj2 Hir (nth 0 ir [])); auto; apply nth_In; lia. }
  rewrite E2 in Q4. unfold I in EB. rewrite EB in Q4. exists eng', outs, outs'. split; [exact Q1|]. split; [exact Q2|]. split; [exact Q3|]. intros o Ho. apply (Q4 o Ho).
Qed.
(** The hypotheses of C53 (and with them those of C52) are met by a concrete execution. *)
Example C53_example :
  let R := @fast_rfft Rarith in let I := convolver_if R in
  let ir : audio Rarith := map (map Rdefinitions.IZR) [[1; 2; 3; 4; 5]; [7; 0; 1; 2; 3]]%Z in
  let sp := {| cs_in := [0; 1]; cs_out := [1; 0]; cs_fade := kCrossfade; cs_internal := None |} in
  let s := {| ps_rate_num := 44100; ps_rate_den := 1; ps_max_block := 64; ps_channels := 2 |} in
  let b := {| lower_fade_bound := 4410; upper_fade_bound := 176400; max_crossfade_ir_length := 441000; in_out_fade_length := 17640 |} in
  exists st c eng,
    let l := [Prepare I s; Others I [Deliver I {| h_id := 0; h_cv := c : cv I |}]] in
    let tr := [Prepared 0 s; ResetDone 0 false; Began 3 0 0 (ir, sp); Cancelled 0 0; Notified 0 true; Queued 0 0; Returned 3 0 0;
               Pushed 0 0 c; Notified 0 false] in
    load_run (convolver_build R) 1 load_new (one_load (ir, sp) s false) = Ok (st, tr) /\
    eng_run I (eng_new I []) l = Ok (eng, []) /\ @same_execution Rarith I _ 0 tr [] l (e_log I eng) /\
    forall bs bs', fits 2 64 bs -> fits 2 64 bs' -> settling_time b 64 <= total bs ->
    exists eng' outs outs',
      eng_run I eng (map (Process I) (bs ++ bs')) = Ok (eng', outs ++ outs') /\ length outs = length bs /\ length outs' = length bs' /\
      forall o, o < 2 ->
        skipn 5 (channel o outs') = skipn (total bs + 5) (mixed 2 (fun c => nth c ir []) [0; 1] [1; 0] (bs ++ bs') o).
Proof.
  intros R I ir sp s b. apply (one_load_heard Rarith_laws fast_rfft (fast_rfft_ok Rarith_laws) ir 5 false); [|cbn; lia|cbn; lia].
  split; auto. intros c H; repeat (destruct H as [<-|H]); try destruct H; reflexivity.
Qed.
(** One channel, over the field with 8191 elements, computed: a first load, some blocks, a second load, 112 samples
    (the settling time) and then 8 more.  The last block is the convolution with the second response. *)
Definition c53_run : res (list Z) :=
  let R := @fast_rfft Zarith in let I := convolver_if R in
  let sp := {| cs_in := [0]; cs_out := [0]; cs_fade := kCrossfade; cs_internal := None |} in
  let load n ir := (CallLoadIR 0 0 ([ir] : audio Zarith, sp) :: repeat (StepCaller 0) 7) ++ repeat (StepWorker 0) n in
  ' (_, tr) <- load_run (convolver_build R) 1 load_new ([CallPrepare 0 small_spec; Preparing 0] ++ load 9 [1; 2; 3]%Z ++ load 9 [5; 0; 2]%Z) ;;
  let got := flat_map (fun x => match x with Pushed i 0 c => [{| h_id := i; h_cv := c : cv I |}] | _ => [] end) tr in
  let ones n := [repeat 1%Z n] in
  ' (_, outs) <- eng_run I (eng_new I [])
    (Prepare I small_spec :: Others I (map (Deliver I) (firstn 1 got)) :: Process I (ones 16) :: Others I (map (Deliver I) (skipn 1 got)) ::
     map (Process I) (repeat (ones 16) 7) ++ [Process I [[1; 2; 3; 4; 5; 6; 7; 8]%Z]]) ;;
  Ok (channel 0 (skipn 8 outs)).
Example C53_computed : settling_time {| lower_fade_bound := 1; upper_fade_bound := 40; max_crossfade_ir_length := 100; in_out_fade_length := 4 |} 16 = 7 * 16 /\
  engine_bounds small_spec = Ok {| lower_fade_bound := 1; upper_fade_bound := 40; max_crossfade_ir_length := 100; in_out_fade_length := 4 |} /\
  c53_run = Ok [7; 12; 17; 24; 31; 38; 45; 52]%Z /\
  skipn 128 (convolve (A := Zarith) [5; 0; 2]%Z (repeat 1 128 ++ [1; 2; 3; 4; 5; 6; 7; 8])%Z) = [7; 12; 17; 24; 31; 38; 45; 52]%Z.
Proof. vm_compute. repeat split. Qed.
(** Clear does not cancel a load in progress, whatever the (stereo) response: LoadIR has returned, then Clear is
    called and returns, nothing else is called, and afterwards the response is heard. *)
Theorem C53_clear_does_not_cancel_refuted : forall (A : arith), arith_laws A -> forall R : rfft A, rfft_ok R ->
  let I := convolver_if R in
  forall (ir : audio A) n, block_of 2 n ir -> 0 < n -> (Z.of_nat n <= 2 ^ 24)%Z ->
  let sp := {| cs_in := [0; 1]; cs_out := [1; 0]; cs_fade := kCrossfade; cs_internal := None |} in
  let s := {| ps_rate_num := 44100; ps_rate_den := 1; ps_max_block := 64; ps_channels := 2 |} in
  let b := {| lower_fade_bound := 4410; upper_fade_bound := 176400; max_crossfade_ir_length := 441000; in_out_fade_length := 17640 |} in
  exists ms st c eng,
    let l := [Prepare I s; Clear I; Others I [Deliver I {| h_id := 0; h_cv := c : cv I |}]] in
    let tr := [Prepared 0 s; ResetDone 0 false; Began 3 0 0 (ir, sp); Cancelled 0 0; Notified 0 true; Queued 0 0; Returned 3 0 0;
               ResetDone 0 true; Pushed 0 0 c; Notified 0 false] in
    load_run (convolver_build R) 1 load_new ms = Ok (st, tr) /\
    eng_run I (eng_new I []) l = Ok (eng, []) /\ @same_execution A I _ 0 tr [] l (e_log I eng) /\
    forall bs bs', fits 2 64 bs -> fits 2 64 bs' -> settling_time b 64 <= total bs ->
    exists eng' outs outs',
      eng_run I eng (map (Process I) (bs ++ bs')) = Ok (eng', outs ++ outs') /\ length outs = length bs /\ length outs' = length bs' /\
      forall o, o < 2 ->
        skipn n (channel o outs') = skipn (total bs + n) (mixed 2 (fun c => nth c ir []) [0; 1] [1; 0] (bs ++ bs') o).
Proof.
  intros A L R HR I ir n H1 H2 H3 sp s b. exists (one_load (ir, sp) s true).
  exact (one_load_heard L R HR ir n true H1 H2 H3).
Qed.
Print Assumptions C52_convolver_in_charge.
Print Assumptions C52_last_response_is_heard.
Print Assumptions C53_from_LoadIR_to_sound.
Print Assumptions C53_clear_does_not_cancel_refuted.

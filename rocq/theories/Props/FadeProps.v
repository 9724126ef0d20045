(** * C36-C39: fades *)
From Verif.Model Require Import Base Arith ArithReal ArithMod Juce Float32 SmoothedValue Partitioning
     UniformPartitionedConvolver TimeDistributedNUPC Convolver ConvolutionEngine.
From Verif.Spec Require Import Transform RealFFT Signal Routing Engine.
From Verif.Proofs Require Import Lists Blocks Streams FloatProof FadeProof SmoothProof EngineProof EngineInv EngineFront
     EngineCalm EngineRoom EngineRun EngineFade EngineMore EngineLevels.
From Verif.Props Require Import EngineProps.

(** Histories can be continued. *)
Lemma fits_legal {A : arith} (I : conv_if A) w ok M bs : fits w M bs -> legal I w ok (Some M) (map (Process I) bs).
Proof.
  induction bs as [|b bs IH]; intros H; [exact Logic.I|]. cbn [map legal]. split.
  - destruct (H b (or_introl eq_refl)) as (m & H1 & H2). eauto.
  - apply IH. intros x Hx. apply H. now right.
Qed.
Lemma legal_app {A : arith} (I : conv_if A) w ok : forall l1 p l2, legal I w ok p l1 -> legal I w ok (prepared_after I p l1) l2 -> legal I w ok p (l1 ++ l2).
Proof.
  induction l1 as [|o l1 IH]; intros p l2 H1 H2; [exact H2|].
  rewrite prepared_cons in H2. apply (legal_cons I w ok p o l1) in H1 as [Ho H1].
  change ((o :: l1) ++ l2) with (o :: (l1 ++ l2)). apply (legal_cons I w ok p o (l1 ++ l2)). split; auto.
Qed.
Lemma last_spec_app {A : arith} (I : conv_if A) : forall l1 p (l2 : list (op I)), last_spec p (l1 ++ l2) = last_spec (last_spec p l1) l2.
Proof. induction l1 as [|o l1 IH]; intros p l2; [reflexivity|]. destruct o; cbn [app last_spec]; apply IH. Qed.
Lemma last_spec_blocks {A : arith} (I : conv_if A) bs p : last_spec (I := I) p (map (Process I) bs) = p.
Proof. induction bs; auto. Qed.
Lemma prepared_last {A : arith} (I : conv_if A) : forall l p, prepared_after I (option_map ps_max_block p) l = option_map ps_max_block (last_spec (I := I) p l).
Proof.
  induction l as [|o l IH]; intros p; [reflexivity|]. rewrite prepared_cons, last_spec_cons, <- IH. f_equal. apply last_spec_prepared.
Qed.
Lemma reached_more {A : arith} (I : conv_if A) w ok env l s e bs e' outs : reached I w ok env l s e ->
  fits w (ps_max_block s) bs -> eng_run I e (map (Process I) bs) = Ok (e', outs) -> reached I w ok env (l ++ map (Process I) bs) s e'.
Proof.
  intros (H1 & H2 & H3 & o1 & E1) Hf E. split; auto. split; [|split].
  - apply legal_app; auto. change (@None nat) with (option_map ps_max_block None). rewrite prepared_last, H3. now apply fits_legal.
  - now rewrite last_spec_app, H3, last_spec_blocks.
  - rewrite run_app, E1. cbn [bind]. rewrite E. cbn [bind]. eauto.
Qed.

(** ** C36 *)
(** [k] samples of a cross-fade over [n] samples are over.  The engine is fed blocks, and more
    convolvers may be delivered at any moment ([env] is arbitrary); the last block may go past the end of
    the fade.  [olds] and [news] are what the two convolvers make of the blocks. *)
Theorem C36_crossfade : forall (A : arith), arith_laws A -> inv_law A ->
  forall (I : conv_if A) w ok, 0 < w -> accepting I w ok ->
  forall env l s e b, reached I w ok env l s e -> engine_bounds s = Ok b ->
  forall a h n k, crossing b a h n k e ->
  forall bs, fits w (ps_max_block s) bs -> k + total (removelast bs) < n ->
  exists e' outs a' h' olds news,
    eng_run I e (map (Process I) bs) = Ok (e', outs) /\
    feed (cv_process I) (h_cv I a) bs = Ok (a', olds) /\ feed (cv_process I) (h_cv I h) bs = Ok (h', news) /\
    (forall c, c < w -> length (channel c olds) = total bs /\ length (channel c news) = total bs /\
       channel c outs = blend (fun t => fall n (k + t)) (channel c olds) (fun t => rise n (k + t)) (channel c news)) /\
    (if k + total bs <? n
     then crossing b {| h_id := h_id I a; h_cv := a' |} {| h_id := h_id I h; h_cv := h' |} n (k + total bs) e'
     else arrived b {| h_id := h_id I h; h_cv := h' |} e').
Proof.
  intros A L HV I w ok Hw HI env l s e b HR Eb a h n k HC bs Hf Hk.
  destruct (reached_tracked I w ok Hw HI env l s e HR) as (Hsp & b' & Eb' & Hi). assert (b' = b) by congruence. subst b'.
  destruct (cross_blocks L HV I w ok Hw HI (ps_max_block s) b n (proj1 (proj2 Hsp)) (bounds_positive w s b Hsp Eb) bs k a h e Hf Hi HC Hk)
    as (e' & outs & a' & h' & olds & news & E & _ & Fa & Fh & C & S).
  exists e', outs, a', h', olds, news. auto.
Qed.
(** When nothing else is loaded: the whole sound, from the first sample of the fade to the end of time. *)
Theorem C36_crossfade_whole : forall (A : arith), arith_laws A -> inv_law A ->
  forall (I : conv_if A) w ok, 0 < w -> accepting I w ok ->
  forall env l s e b, reached I w ok env l s e -> engine_bounds s = Ok b -> no_loads e ->
  forall a h n, begins b kCrossfade a h n e -> e_commands I e = [h] ->
  forall bs, fits w (ps_max_block s) bs ->
  exists e' outs a' h' olds news,
    eng_run I e (map (Process I) bs) = Ok (e', outs) /\
    feed (cv_process I) (h_cv I a) bs = Ok (a', olds) /\ feed (cv_process I) (h_cv I h) bs = Ok (h', news) /\
    (forall c, c < w -> channel c outs = blend (fall n) (channel c olds) (rise n) (channel c news)) /\
    (n <= total bs -> at_rest e' /\ line e' = [h_id I h] /\ plays w (ps_max_block s) e' (Some {| h_id := h_id I h; h_cv := h' |})).
Proof.
  intros A L HV I w ok Hw HI env l s e b HR Eb HN a h n (B1 & B2 & _ & B4) Ec bs Hf.
  destruct (reached_tracked I w ok Hw HI env l s e HR) as (Hsp & b' & Eb' & Hi). assert (b' = b) by congruence. subst b'.
  pose proof (bounds_positive w s b Hsp Eb) as HP.
  assert (Hn : (0 < Z.of_nat n)%Z).
  { apply (fade_len_of I w ok (ps_max_block s) b e h) in B4; auto. pose proof (fade_len_pos I w Hw b h HP) as X. rewrite B4 in X. exact X. }
  destruct (crossfade_whole I w ok Hw HI L HV (ps_max_block s) b e a h (Z.of_nat n) bs (proj1 (proj2 Hsp)) Hi B1 HN B2 Ec B4 Hn Hf)
    as (e' & outs & a' & h' & olds & news & E & Fa & Fh & C & S).
  rewrite Nat2Z.id in *. exists e', outs, a', h', olds, news. split; auto. split; auto. split; auto.
  split; [intros c Hc; now apply C|]. intros HT. destruct (S HT) as (S1 & S2 & S3 & S4 & S5). split; auto.
  destruct S3 as (R1 & R2 & R3 & R4). split.
  - unfold line, in_line. now rewrite S1, S2, R1, R2.
  - change (Some _) with (Some (renew I h h')). rewrite <- S1. apply (alone_plays I w ok Hw HI (ps_max_block s) b); auto; [apply Hsp|]. repeat split; auto.
Qed.
(** The levels add up to 1; they are at the end what they should be.  [rise n t = (t+1)/n], [fall n t = 1 - (t+1)/n]. *)
Theorem C36_levels : forall (A : arith), arith_laws A -> inv_law A -> forall n t, 0 < n ->
  sadd (fall n t) (rise n t) = @s1 A /\ (n <= S t -> rise n t = @s1 A /\ fall n t = @s0 A) /\
  (t < n -> smul (sofnat n) (rise n t) = @sofnat A (S t)).
Proof.
  intros A L HV n t Hn. pose proof (law_ring A L) as Sring.
  split; [|split].
  - destruct (Nat.le_gt_cases n (S t)).
    + rewrite (fall_done L), (rise_done HV) by lia. apply (Radd_0_l Sring).
    + unfold fall, rise. rewrite Nat.min_l by lia. rewrite <- (HV n Hn). rewrite <- (Rdistr_l Sring). f_equal.
      rewrite (sofnat_sub L) by lia. rewrite (Rsub_def Sring), <- (Radd_assoc Sring), (Radd_comm Sring (sopp _)), (Ropp_def Sring).
      rewrite (Radd_comm Sring). apply (Radd_0_l Sring).
  - intros H. split; [apply (rise_done HV); lia|apply (fall_done L); lia].
  - intros H. unfold rise. rewrite Nat.min_l by lia. rewrite (Rmul_comm Sring), <- (Rmul_assoc Sring), (Rmul_comm Sring (sinvn n)), HV by lia.
    rewrite (Rmul_comm Sring). apply (Rmul_1_l Sring).
Qed.
(** Every fade of every undisturbed history is one of these, and its length is within the bounds. *)
Theorem C36_every_fade : forall (A : arith), arith_laws A -> inv_law A ->
  forall (I : conv_if A) w ok, 0 < w -> accepting I w ok ->
  forall env l s e b, reached I w ok env l s e -> undisturbed I (eng_new I env) l -> engine_bounds s = Ok b ->
  (e_fade I e = None -> at_rest e) /\
  forall h, e_fade I e = Some h -> exists a n k,
    ((lower_fade_bound b <= Z.of_nat n <= upper_fade_bound b)%Z /\ crossing b a h n k e) \/
    (Z.of_nat n = in_out_fade_length b /\ (leaving b a h n k e \/ entering a h n k e)).
Proof.
  intros A L HV I w ok Hw HI env l s e b HR HU Eb. split.
  - intros Hf. eapply reached_rest; eauto. split; auto.
    destruct (reached_tracked I w ok Hw HI env l s e HR) as (Hsp & b1 & Eb1 & [[] ?]). auto.
  - intros h Hh. pose proof HR as (He & Hl & Hs & outs & E).
    pose proof (prog_run L HV I w ok Hw HI l None (eng_new I env) e outs (good_new I w ok env He) ltac:(congruence) Logic.I Hl HU E) as HP.
    rewrite Hs in HP. destruct (HP b Eb h Hh) as (a & n & j & k & H1 & H2 & H3 & H4).
    apply (fin_fade_of I w Hw) in H4. destruct H4 as [HB HL]. unfold between in HB. cbn [f_strat front_of] in *. exists a, n.
    destruct (e_strategy I e) eqn:Es; cbn [len_ok phase_ok] in *.
    + destruct H3 as [[-> Hk]|Hk].
      * exists k. right. split; auto. left. split; auto. right. unfold between. tauto.
      * exists j. right. split; auto. right. split; auto. unfold between. split; [tauto|]. eauto.
    + subst k. exists j. left. split; auto. split; auto. right. unfold between. tauto.
Qed.
(** a cross-fade over 7 samples from the constant 1 to the constant 2, in blocks of 3 samples, over the field
    with 8191 elements *)
Example C36_example :
  let I := toy Zarith in
  let h i := toy_held Zarith i (Z.of_nat i) 50%Z kCrossfade in
  match eng_run I (eng_new I []) [Prepare I small_spec; Others I [Deliver I (h 1)]; Process I [[1; 1]%Z]; Others I [Deliver I (h 2)]] with
  | Ok (e, _) =>
      match engine_bounds small_spec with Ok b => fade_of b 50 kCrossfade = Ok (kCrossfade, 7%Z) | _ => False end /\
      match eng_run I e (map (Process I) [[[7; 7; 7]]; [[7; 7; 7]]; [[7; 7; 7]]]%Z) with
      | Ok (_, outs) => channel 0 outs = [8; 9; 10; 11; 12; 13; 14; 14; 14]%Z
      | _ => False
      end
  | _ => False
  end.
Proof. vm_compute. repeat split. Qed.
(** The hypotheses are met, over any arithmetic (so over the real numbers). *)
Example C36_hypotheses : forall A (x : sample A) (strategy : fade_strategy),
  let I := toy A in
  let h i := toy_held A i x 50%Z strategy in
  let l := [Prepare I small_spec; Others I [Deliver I (h 1)]; Process I [[x; x]]; Others I [Deliver I (h 2)]] in
  exists e b, reached I 1 (fun _ => True) [] l small_spec e /\ undisturbed I (eng_new I []) l /\
    engine_bounds small_spec = Ok b /\ no_loads e /\
    begins b strategy (h 1) (h 2) (match strategy with kCrossfade => 7 | kInOut => 4 end) e /\ e_commands I e = [h 2].
Proof.
  intros A x strategy I h l.
  assert (HR : exists e outs, eng_run I (eng_new I []) l = Ok (e, outs) /\ e_env I e = [] /\ at_rest e /\ e_conv I e = Some (h 1) /\ e_commands I e = [h 2]).
  { eexists _, _. split; [vm_compute; reflexivity|]. repeat split. }
  destruct HR as (e & outs & E & Ee & H1 & H2 & H3). exists e. eexists. split; [|split; [|split; [exact small_bounds|split; [|split]]]].
  - split; [constructor|]. split; [|split; [reflexivity|eauto]]. split; [exact small_spec_ok|]. split; [intros ? ?; exact Logic.I|].
    split; [|split; [intros ? ?; exact Logic.I|exact Logic.I]]. exists 16, 2. split; auto. split; [lia|]. split; auto. intros c [<-|[]]. reflexivity.
  - apply once_undisturbed. intros o [<-|[<-|[<-|[]]]]; auto.
  - intros y Hy. rewrite Ee in Hy. destruct Hy.
  - split; auto. split; auto. split; [change (e_commands (toy A) e) with (e_commands I e); rewrite H3; reflexivity|]. destruct strategy; vm_compute; reflexivity.
  - exact H3.
Qed.
Print Assumptions C36_crossfade.
Print Assumptions C36_crossfade_whole.
Print Assumptions C36_levels.
Print Assumptions C36_every_fade.

(** ** C37 *)
(** The first half: the old convolver alone, its level falling; [h] is not used. *)
Theorem C37_out : forall (A : arith), arith_laws A -> inv_law A ->
  forall (I : conv_if A) w ok, 0 < w -> accepting I w ok ->
  forall env l s e b, reached I w ok env l s e -> engine_bounds s = Ok b ->
  forall a h n k, leaving b a h n k e ->
  forall bs, fits w (ps_max_block s) bs -> k + total (removelast bs) < n ->
  exists e' outs a' olds,
    eng_run I e (map (Process I) bs) = Ok (e', outs) /\
    feed (cv_process I) (h_cv I a) bs = Ok (a', olds) /\
    (forall c, c < w -> length (channel c olds) = total bs /\
       channel c outs = scaled (fun t => fall n (k + t)) (channel c olds)) /\
    (if k + total bs <? n
     then leaving b {| h_id := h_id I a; h_cv := a' |} h n (k + total bs) e'
     else entering {| h_id := h_id I a; h_cv := a' |} h n 0 e').
Proof.
  intros A L HV I w ok Hw HI env l s e b HR Eb a h n k HC bs Hf Hk.
  destruct (reached_tracked I w ok Hw HI env l s e HR) as (Hsp & b' & Eb' & Hi). assert (b' = b) by congruence. subst b'.
  destruct (leave_blocks L HV I w ok Hw HI (ps_max_block s) b n (proj1 (proj2 Hsp)) (bounds_positive w s b Hsp Eb) bs k a h e Hf Hi HC Hk)
    as (e' & outs & a' & olds & E & _ & Fa & C & S).
  exists e', outs, a', olds. auto.
Qed.
(** The second half, from the next block on: the new convolver alone, its level rising; [a] is not used. *)
Theorem C37_in : forall (A : arith), arith_laws A -> inv_law A ->
  forall (I : conv_if A) w ok, 0 < w -> accepting I w ok ->
  forall env l s e b, reached I w ok env l s e -> engine_bounds s = Ok b ->
  forall a h n k, entering a h n k e ->
  forall bs, fits w (ps_max_block s) bs -> k + total (removelast bs) < n ->
  exists e' outs h' news,
    eng_run I e (map (Process I) bs) = Ok (e', outs) /\
    feed (cv_process I) (h_cv I h) bs = Ok (h', news) /\
    (forall c, c < w -> length (channel c news) = total bs /\
       channel c outs = scaled (fun t => rise n (k + t)) (channel c news)) /\
    (if k + total bs <? n
     then entering a {| h_id := h_id I h; h_cv := h' |} n (k + total bs) e'
     else arrived b {| h_id := h_id I h; h_cv := h' |} e').
Proof.
  intros A L HV I w ok Hw HI env l s e b HR Eb a h n k HC bs Hf Hk.
  destruct (reached_tracked I w ok Hw HI env l s e HR) as (Hsp & b' & Eb' & Hi). assert (b' = b) by congruence. subst b'.
  destruct (enter_blocks L HV I w ok Hw HI (ps_max_block s) b n (proj1 (proj2 Hsp)) (bounds_positive w s b Hsp Eb) bs k a h e Hf Hi HC Hk)
    as (e' & outs & h' & news & E & _ & Fh & C & S).
  exists e', outs, h', news. auto.
Qed.
(** When nothing else is loaded.  [bs1] are the blocks up to and including the one in which the first half
    ends, [bs2] those after. *)
Theorem C37_whole : forall (A : arith), arith_laws A -> inv_law A ->
  forall (I : conv_if A) w ok, 0 < w -> accepting I w ok ->
  forall env l s e b, reached I w ok env l s e -> engine_bounds s = Ok b -> no_loads e ->
  forall a h n, begins b kInOut a h n e -> e_commands I e = [h] ->
  forall bs1 bs2, fits w (ps_max_block s) (bs1 ++ bs2) -> total (removelast bs1) < n -> (bs2 <> [] -> n <= total bs1) ->
  exists e' outs1 outs2 a' h' olds news,
    eng_run I e (map (Process I) (bs1 ++ bs2)) = Ok (e', outs1 ++ outs2) /\
    feed (cv_process I) (h_cv I a) bs1 = Ok (a', olds) /\ feed (cv_process I) (h_cv I h) bs2 = Ok (h', news) /\
    (forall c, c < w -> length (channel c outs1) = total bs1 /\
       channel c outs1 = scaled (fall n) (channel c olds) /\ channel c outs2 = scaled (rise n) (channel c news)) /\
    (n <= total bs2 -> at_rest e' /\ line e' = [h_id I h] /\ plays w (ps_max_block s) e' (Some {| h_id := h_id I h; h_cv := h' |})).
Proof.
  intros A L HV I w ok Hw HI env l s e b HR Eb HN a h n (B1 & B2 & _ & B4) Ec bs1 bs2 Hf H1 H2.
  destruct (reached_tracked I w ok Hw HI env l s e HR) as (Hsp & b' & Eb' & Hi). assert (b' = b) by congruence. subst b'.
  pose proof (bounds_positive w s b Hsp Eb) as HP.
  assert (Hn : (0 < Z.of_nat n)%Z).
  { apply (fade_len_of I w ok (ps_max_block s) b e h) in B4; auto. pose proof (fade_len_pos I w Hw b h HP) as X. rewrite B4 in X. exact X. }
  destruct (fits_app w (ps_max_block s) bs1 bs2 Hf) as [Hf1 Hf2].
  rewrite <- (Nat2Z.id n) in H1, H2.
  destruct (inout_whole I w ok Hw HI L HV (ps_max_block s) b e a h (Z.of_nat n) bs1 bs2 (proj1 (proj2 Hsp)) Hi B1 HN B2 Ec B4 Hn Hf1 Hf2 H1 H2)
    as (e' & outs1 & outs2 & a' & h' & olds & news & E & Fa & Fh & C & S).
  rewrite Nat2Z.id in *. exists e', outs1, outs2, a', h', olds, news. split; auto. split; auto. split; auto.
  split; [intros c Hc; destruct (C c Hc) as (X1 & X2 & X3 & X4); rewrite X3, scaled_length at 1; auto|]. intros HT. destruct (S HT) as (S1 & S2 & S3 & S4 & S5). split; auto.
  destruct S3 as (R1 & R2 & R3 & R4). split.
  - unfold line, in_line. now rewrite S1, S2, R1, R2.
  - change (Some _) with (Some (renew I h h')). rewrite <- S1. apply (alone_plays I w ok Hw HI (ps_max_block s) b); auto; [apply Hsp|]. repeat split; auto.
Qed.
(** In every undisturbed history, an in/out fade is in one of the two halves, never in both
    ([C36_every_fade]). *)
Theorem C37_one_half : forall (A : arith), arith_laws A -> inv_law A ->
  forall (I : conv_if A) w ok, 0 < w -> accepting I w ok ->
  forall env l s e b, reached I w ok env l s e -> undisturbed I (eng_new I env) l -> engine_bounds s = Ok b ->
  forall h, e_fade I e = Some h -> e_strategy I e = kInOut ->
  exists a n k, Z.of_nat n = in_out_fade_length b /\
    ((leaving b a h n k e /\ forall a' h' j, ~ entering a' h' n j e) \/
     (entering a h n k e /\ forall a' h' j, ~ leaving b a' h' n j e)).
Proof.
  intros A L HV I w ok Hw HI env l s e b HR HU Eb h Hh Hs.
  destruct (C36_every_fade A L HV I w ok Hw HI env l s e b HR HU Eb) as [_ HE].
  destruct (HE h Hh) as (a & n & k & [[_ [_ [[_ H]|[H _]]]]|[Hn [H|H]]]).
  - destruct H as ((H & _) & _). congruence.
  - destruct H as (_ & _ & H). congruence.
  - exists a, n, k. split; auto. left. split; auto. intros a' h' j (Hj & _ & k' & Hk' & (_ & HO & _)).
    destruct H as [Hk [[_ ((X & _) & _)]|[_ (_ & HO' & _)]]]; [congruence|]. lia.
  - exists a, n, k. split; auto. right. split; auto. intros a' h' j (Hj & HL). destruct H as (_ & _ & k' & Hk' & (_ & HO & _)).
    destruct HL as [[_ ((X & _) & _)]|[_ (_ & HO' & _)]]; [congruence|]. lia.
Qed.
(** an in/out fade over 2 times 4 samples, in blocks of 3 samples *)
Example C37_example :
  let I := toy Zarith in
  let h i := toy_held Zarith i (Z.of_nat i) 50%Z kInOut in
  match eng_run I (eng_new I []) [Prepare I small_spec; Others I [Deliver I (h 1)]; Process I [[1; 1]%Z]; Others I [Deliver I (h 2)]] with
  | Ok (e, _) =>
      match eng_run I e (map (Process I) [[[4; 4; 4]]; [[4; 4; 4]]; [[4; 4; 4]]; [[4; 4; 4]]]%Z) with
      | Ok (_, outs) => channel 0 outs = [3; 2; 1; 0; 0; 0; 2; 4; 6; 8; 8; 8]%Z
      | _ => False
      end
  | _ => False
  end.
Proof. vm_compute. repeat split. Qed.
Print Assumptions C37_out.
Print Assumptions C37_in.
Print Assumptions C37_whole.
Print Assumptions C37_one_half.

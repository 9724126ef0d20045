(** * C38, C39: the length of fades; no convolver, the first convolver *)
From Coq Require Import ZArith.
From Verif.Model Require Import Base Arith ArithReal ArithMod Juce Float32 SmoothedValue Partitioning
     UniformPartitionedConvolver TimeDistributedNUPC Convolver ConvolutionEngine.
From Verif.Spec Require Import Transform RealFFT Signal Routing Engine.
From Verif.Proofs Require Import Lists Blocks Streams FloatProof FadeProof FadeExact SmoothProof EngineProof EngineInv EngineFront
     EngineCalm EngineRoom EngineRun EngineFade EngineMore EngineLevels.
From Verif.Props Require Import EngineProps FadeProps.

(** ** C38 *)
(** the least integer not below [p / q] *)
Definition ceiling (p q : Z) : Z := (- (- p / q))%Z.
Lemma ceiling_spec p q : (0 < q)%Z -> ((ceiling p q - 1) * q < p <= ceiling p q * q)%Z.
Proof. exact (zceil_spec p q). Qed.

(** At every sample rate up to 100 MHz the bounds are computed without overflow, they are positive and in
    order. *)
Theorem C38_bounds : forall s, rate_ok s -> exists b, engine_bounds s = Ok b /\
  (0 < lower_fade_bound b <= upper_fade_bound b)%Z /\ (0 < in_out_fade_length b <= upper_fade_bound b)%Z /\
  (0 < max_crossfade_ir_length b < 2 ^ 31)%Z.
Proof.
  intros s (H1 & H2 & H3). destruct (bounds_ok s H1 H2 H3) as (b & E & _ & _ & _ & _ & H). exists b. tauto.
Qed.
(** At every integer sample rate up to 800 kHz they are exactly 0.1, 4, 10 and 0.4 seconds, rounded up to
    samples (the code computes in single precision). *)
Theorem C38_seconds : forall s r, (0 < r <= 800000)%Z -> ps_rate_num s = r -> ps_rate_den s = 1%Z ->
  engine_bounds s = Ok {| lower_fade_bound := ceiling r 10; upper_fade_bound := 4 * r;
                          max_crossfade_ir_length := 10 * r; in_out_fade_length := ceiling (4 * r) 10 |}.
Proof.
  intros s r Hr E1 E2. destruct (bounds_ok s) as (b & E & B1 & B2 & B3 & B4 & _); try lia.
  rewrite E. f_equal. destruct b as [b1 b2 b3 b4]. cbn [lower_fade_bound upper_fade_bound max_crossfade_ir_length in_out_fade_length] in *.
  subst b1 b2 b3 b4. rewrite E1, E2.
  rewrite (ceil_exact kLowerFadeTimeS 1 10), (ceil_exact kUpperFadeTimeS 4 1), (ceil_exact kMaxCrossFadeIrTimeS 10 1), (ceil_exact kInOutFadeTimeS 4 10);
    try lia; try (vm_compute; reflexivity).
  unfold zceil, ceiling. rewrite !Z.div_1_r, !Z.opp_involutive, Z.mul_1_l. reflexivity.
Qed.
(** Strategy and length for a response of [ir] samples.  The clamp is well defined.  Up to 599,186 samples the
    length of a cross-fade is exactly 0.14 times the response, rounded up, within the bounds. *)
Theorem C38_strategy_and_length : forall s b, rate_ok s -> engine_bounds s = Ok b -> forall ir wanted, (0 < ir)%Z ->
  exists strategy n, fade_of b ir wanted = Ok (strategy, n) /\
    (strategy = kCrossfade <-> wanted = kCrossfade /\ (ir < max_crossfade_ir_length b)%Z) /\
    (strategy = kInOut -> n = in_out_fade_length b) /\
    (strategy = kCrossfade -> (lower_fade_bound b <= n <= upper_fade_bound b)%Z /\
      ((14 * ir <= 2 ^ 23)%Z -> n = Z.max (lower_fade_bound b) (Z.min (upper_fade_bound b) (ceiling (14 * ir) 100)))).
Proof.
  intros s b Hs Eb ir wanted Hir. destruct (C38_bounds s Hs) as (b' & Eb' & H1 & H2 & H3).
  assert (b' = b) by congruence. subst b'. rewrite fade_of_ok by lia.
  destruct wanted; [|destruct (Z.leb_spec (max_crossfade_ir_length b) ir)]; eexists _, _; (split; [reflexivity|]).
  - split; [|split; auto; discriminate]. split; [discriminate|]. intros [X _]. discriminate.
  - split; [|split; auto; discriminate]. split; [discriminate|]. lia.
  - split; [tauto|]. split; [discriminate|]. intros _. split; [lia|]. intros H14.
    unfold wanted_length, f_of_Z. rewrite (ceil_exact kFadeRatio 14 100); try lia; try (vm_compute; reflexivity).
Qed.
(** Longer responses have no shorter cross-fades, at any length. *)
Theorem C38_monotone : forall s b, rate_ok s -> engine_bounds s = Ok b -> forall ir ir' w w' n n', (ir <= ir')%Z ->
  fade_of b ir w = Ok (kCrossfade, n) -> fade_of b ir' w' = Ok (kCrossfade, n') -> (n <= n')%Z.
Proof.
  intros s b Hs Eb ir ir' w w' n n' Hle. destruct (C38_bounds s Hs) as (b' & Eb' & H1 & H2 & H3).
  assert (b' = b) by congruence. subst b'. rewrite !fade_of_ok by lia. pose proof (wanted_length_mono ir ir' Hle).
  destruct w; [discriminate|]. destruct w'; [intros ?; discriminate|].
  destruct (Z.leb_spec (max_crossfade_ir_length b) ir); [discriminate|]. destruct (Z.leb_spec (max_crossfade_ir_length b) ir'); [intros ?; discriminate|].
  intros X Y. injection X as <-. injection Y as <-. lia.
Qed.
(** These are the fades the engine makes: [begins] in C36 and C37 takes the length from [fade_of]. *)
Example C38_example : exists s b, rate_ok s /\ ps_rate_num s = 44100%Z /\ engine_bounds s = Ok b /\
  b = {| lower_fade_bound := 4410; upper_fade_bound := 176400; max_crossfade_ir_length := 441000; in_out_fade_length := 17640 |} /\
  fade_of b 100000 kCrossfade = Ok (kCrossfade, 14000%Z) /\ fade_of b 441000 kCrossfade = Ok (kInOut, 17640%Z) /\
  fade_of b 440999 kCrossfade = Ok (kCrossfade, 61740%Z) /\ fade_of b 10 kCrossfade = Ok (kCrossfade, 4410%Z).
Proof.
  exists {| ps_rate_num := 44100; ps_rate_den := 1; ps_max_block := 512; ps_channels := 2 |}. eexists.
  split; [split; [|split]; cbn; lia|]. split; [reflexivity|]. split; [vm_compute; reflexivity|]. split; [reflexivity|].
  split; [|split; [|split]]; vm_compute; reflexivity.
Qed.
(** A sample rate that is not an integer: 44100.5 Hz *)
Example C38_fraction : exists s b, rate_ok s /\ engine_bounds s = Ok b /\ (ps_rate_num s = 88201 /\ ps_rate_den s = 2)%Z /\
  b = {| lower_fade_bound := 4411; upper_fade_bound := 176402; max_crossfade_ir_length := 441005; in_out_fade_length := 17641 |}.
Proof.
  exists {| ps_rate_num := 88201; ps_rate_den := 2; ps_max_block := 512; ps_channels := 2 |}. eexists.
  split; [split; [|split]; cbn; lia|]. split; [vm_compute; reflexivity|]. split; [split; reflexivity|]. reflexivity.
Qed.
Print Assumptions C38_bounds.
Print Assumptions C38_seconds.
Print Assumptions C38_strategy_and_length.
Print Assumptions C38_monotone.

(** ** C39 *)
Lemma line_nil {A : arith} (I : conv_if A) (e : engine I) : line e = [] ->
  e_conv I e = None /\ e_fade I e = None /\ e_pending I e = None /\ e_commands I e = [].
Proof.
  unfold line, in_line. generalize (e_conv I e) (e_fade I e) (e_pending I e) (e_commands I e). clear e.
  intros [c|] [f|] [p|] [|q l] H; cbn in H; try discriminate H. auto.
Qed.
Lemma line_one {A : arith} (I : conv_if A) (e : engine I) h : in_line e = [h] -> e_commands I e = [h] ->
  e_conv I e = None /\ e_fade I e = None /\ e_pending I e = None.
Proof.
  unfold in_line. intros H E. rewrite E in H. clear E. revert H. generalize (e_conv I e) (e_fade I e) (e_pending I e). clear e.
  intros [c|] [f|] [p|] H; cbn in H; try discriminate H. auto.
Qed.
(** No convolver: the block is unchanged, whatever the other threads do meanwhile (a convolver that
    arrives during the call is heard from the next one on). *)
Theorem C39_none : forall (A : arith) (I : conv_if A) w ok, 0 < w -> accepting I w ok ->
  forall env l s e, reached I w ok env l s e -> line e = [] ->
  forall m b, m <= ps_max_block s -> block_of w m b -> exists e', eng_process I e b = Ok (e', b) /\ idle I e' /\ e_conv I e' = None.
Proof.
  intros A I w ok Hw HI env l s e HR HL m b Hm Hb.
  destruct (reached_tracked I w ok Hw HI env l s e HR) as (Hsp & bd & Eb & Hi).
  destruct (process_front I w ok Hw HI _ bd e m b Hi (proj1 (proj2 Hsp)) Hm Hb) as (e' & o & news & E & _ & _ & OB & _).
  assert (HN : e_conv I e = None /\ e_fade I e = None /\ e_pending I e = None /\ e_commands I e = []).
  { now apply line_nil. }
  destruct HN as (N1 & N2 & N3 & N4). rewrite N4 in OB. cbn [takes fold_left] in OB.
  apply ob_none in OB; [|exact N2]. destruct OB as (c' & Ec & EQ). cbn [front_of f_conv] in Ec. rewrite N1 in Ec. cbn [proc] in Ec.
  injection Ec as <- <-. exists e'. split; auto. unfold front_of, with_slots in EQ. cbn [f_pend f_in f_out f_strat] in EQ. injection EQ as Q1 Q2 Q3 Q4 Q5 Q6.
  split; [split|]; congruence.
Qed.
(** With no loads it stays so for ever. *)
Theorem C39_none_for_ever : forall (A : arith) (I : conv_if A) w ok, 0 < w -> accepting I w ok ->
  forall env l s e, reached I w ok env l s e -> line e = [] -> no_loads e -> plays w (ps_max_block s) e None.
Proof.
  intros A I w ok Hw HI env l s e HR HL HN.
  destruct (reached_tracked I w ok Hw HI env l s e HR) as (Hsp & bd & Eb & Hi).
  assert (HX : e_conv I e = None /\ alone I e).
  { unfold alone. apply line_nil in HL. tauto. }
  destruct HX as [X1 X2]. rewrite <- X1. apply (alone_plays I w ok Hw HI _ bd); auto. apply Hsp.
Qed.
(** The first convolver: the next block is what it makes of it, at full level, whatever the other threads do
    meanwhile. *)
Theorem C39_first : forall (A : arith) (I : conv_if A) w ok, 0 < w -> accepting I w ok ->
  forall env l s e h, reached I w ok env l s e -> in_line e = [h] -> e_commands I e = [h] ->
  forall m b, m <= ps_max_block s -> block_of w m b -> exists e' o c', eng_process I e b = Ok (e', o) /\
    cv_process I (h_cv I h) b = Ok (c', o) /\ idle I e' /\ e_conv I e' = Some {| h_id := h_id I h; h_cv := c' |}.
Proof.
  intros A I w ok Hw HI env l s e h HR HL Ec m b Hm Hb.
  destruct (reached_tracked I w ok Hw HI env l s e HR) as (Hsp & bd & Eb & Hi).
  destruct (process_front I w ok Hw HI _ bd e m b Hi (proj1 (proj2 Hsp)) Hm Hb) as (e' & o & news & E & _ & _ & OB & _).
  assert (HN : e_conv I e = None /\ e_fade I e = None /\ e_pending I e = None).
  { now apply (line_one I e h). }
  destruct HN as (N1 & N2 & N3).
  assert (ET : takes I bd (e_commands I e) (front_of I e) = with_slots I (Some h) None (front_of I e)).
  { rewrite Ec. cbn [takes fold_left]. unfold take. cbn [front_of f_conv]. rewrite N1. unfold with_slots. cbn [front_of f_fade f_pend f_in f_out f_strat f_conv]. now rewrite N2. }
  rewrite ET in OB. apply ob_none in OB; [|reflexivity]. destruct OB as (c' & Ep & EQ). cbn [with_slots f_conv] in Ep.
  apply proc_some in Ep. destruct Ep as (c1 & Ep & ->). unfold front_of, with_slots in EQ. cbn [f_pend f_in f_out f_strat] in EQ. injection EQ as Q1 Q2 Q3 Q4 Q5 Q6.
  exists e', o, c1. split; auto. split; auto. split; [split; congruence|]. exact Q1.
Qed.
(** When nothing else is loaded it is heard for ever. *)
Theorem C39_first_for_ever : forall (A : arith) (I : conv_if A) w ok, 0 < w -> accepting I w ok ->
  forall env l s e h, reached I w ok env l s e -> in_line e = [h] -> e_commands I e = [h] -> no_loads e ->
  plays w (ps_max_block s) e (Some h).
Proof.
  intros A I w ok Hw HI env l s e h HR HL Ec HN bs Hf.
  destruct (reached_tracked I w ok Hw HI env l s e HR) as (Hsp & bd & Eb & Hi).
  assert (HS : e_conv I e = None /\ e_fade I e = None /\ e_pending I e = None).
  { now apply (line_one I e h). }
  destruct HS as (N1 & N2 & N3). destruct bs as [|b bs].
  - exists e, []. split; [reflexivity|]. exists (h_cv I h). reflexivity.
  - destruct (first_run I w ok Hw HI _ bd (b :: bs) e h (proj1 (proj2 Hsp)) Hf Hi HN N1 N2 N3 Ec) as (e' & outs & c' & E & _ & _ & _ & _ & _ & F & _); [discriminate|].
    eauto.
Qed.
(** The hypotheses are met over any arithmetic: a new engine; a convolver delivered while process runs; the
    same convolver in the queue. *)
Example C39_hypotheses : forall A (x : sample A),
  let I := toy A in let h := toy_held A 1 x 50%Z kInOut in let env := [[Deliver I h]] in
  exists e0 e1, reached I 1 (fun _ => True) env [Prepare I small_spec] small_spec e0 /\
    reached I 1 (fun _ => True) [[]; [Deliver I h]] [Prepare I small_spec; Process I [[x]]] small_spec e1 /\
    length (line e0) = 1 /\ in_line e1 = [h] /\ e_commands I e1 = [h] /\ no_loads e1.
Proof.
  intros A x I h env.
  assert (HR : exists e outs, eng_run I (eng_new I env) [Prepare I small_spec] = Ok (e, outs) /\ length (line e) = 1).
  { eexists _, _. split; [vm_compute; reflexivity|]. reflexivity. }
  assert (HR1 : exists e outs, eng_run I (eng_new I [[]; [Deliver I h]]) [Prepare I small_spec; Process I [[x]]] = Ok (e, outs) /\
     e_env I e = [] /\ in_line e = [h] /\ e_commands I e = [h]).
  { eexists _, _. split; [vm_compute; reflexivity|]. repeat split. }
  destruct HR as (e0 & o0 & E0 & P1). destruct HR1 as (e1 & o1 & E1 & Q0 & Q1 & Q2). exists e0, e1. split; [|split; [|split; [|split; [|split]]]]; auto.
  - split; [repeat constructor; intros ? _; exact Logic.I|]. split; [split; [exact small_spec_ok|exact Logic.I]|]. split; [reflexivity|eauto].
  - split; [repeat constructor; intros ? _; exact Logic.I|]. split; [|split; [reflexivity|eauto]]. split; [exact small_spec_ok|].
    split; [|exact Logic.I]. exists 16, 1. split; auto. split; [lia|]. split; auto. intros c [<-|[]]. reflexivity.
  - intros y Hy. rewrite Q0 in Hy. destruct Hy.
Qed.
(** a convolver that multiplies by 5 *)
Example C39_example :
  let I := toy Zarith in
  match eng_run I (eng_new I [[]; [Deliver I (toy_held Zarith 1 5%Z 50%Z kInOut)]]) (Prepare I small_spec :: map (Process I) [[[1; 2]]; [[3; 4]]; [[5]]]%Z) with
  | Ok (_, outs) => outs = [[[1; 2]]; [[15; 20]]; [[25]]]%Z
  | _ => False
  end.
Proof. vm_compute. reflexivity. Qed.
Print Assumptions C39_none.
Print Assumptions C39_none_for_ever.
Print Assumptions C39_first.
Print Assumptions C39_first_for_ever.

(** * C36: where the condition of [C36_every_fade] is needed *)
From Verif.Model Require Import Base Arith ArithReal ArithMod Juce Float32 SmoothedValue Partitioning
     UniformPartitionedConvolver TimeDistributedNUPC Convolver ConvolutionEngine.
From Verif.Spec Require Import Transform RealFFT Signal Routing Engine.
From Verif.Proofs Require Import ComplexAlg Lists Blocks Streams FloatProof FadeProof SmoothProof EngineProof EngineInv EngineFront
     EngineCalm EngineRoom EngineRun EngineFade EngineMore EngineLevels.
From Verif.Props Require Import EngineProps FadeProps.

Section Levels.
  Context {A : arith} (L : arith_laws A).
  Let Sring := law_ring A L.
  Add Ring sring : Sring.
  Lemma full_level (x : sample A) : smul x s1 = x. Proof. ring. Qed.
  Lemma only_new (x y : sample A) : sadd (smul x s0) (smul y s1) = y. Proof. ring. Qed.
End Levels.
Lemma reset_not_busy {A : arith} (I : conv_if A) e e' : eng_reset I e = Ok e' -> e_cmd_busy I e' = 0.
Proof.
  unfold eng_reset, eng_service. destruct (eng_service_n _ _ _) as [e1| |]; cbn [bind]; intros H; try discriminate. injection H as <-.
  destruct (e_pending I _), (e_fade I _), (e_conv I _); reflexivity.
Qed.
Ltac open H := repeat match type of H with
  | bind ?x _ = Ok _ => let E := fresh "E" in destruct x eqn:E; cbn [bind] in H; try discriminate H
  | (let '(_, _) := ?x in _) = Ok _ => let E := fresh "E" in destruct x eqn:E
  end.
Lemma begin_not_busy {A : arith} (I : conv_if A) e e' : eng_begin_fade I e = Ok e' -> e_cmd_busy I e' = e_cmd_busy I e.
Proof.
  unfold eng_begin_fade. destruct (e_fade I e), (e_bounds I e); try discriminate. intros H. open H. injection H as <-. reflexivity.
Qed.
Lemma finish_not_busy {A : arith} (I : conv_if A) e e' : eng_finish I e = Ok e' -> e_cmd_busy I e' = e_cmd_busy I e.
Proof.
  unfold eng_finish. cbv zeta. set (e1 := push_note I _ _).
  assert (H1 : e_cmd_busy I e1 = e_cmd_busy I e).
  { unfold e1. destruct (push_note_slots I (e_conv I e) (set_slots I None (e_fade I e) (e_pending I e) e)) as (_ & _ & _ & _ & _ & _ & _ & _ & H). exact H. }
  match goal with |- match ?x with _ => _ end = _ -> _ => destruct x end; intros H; [apply begin_not_busy in H; rewrite H; exact H1|]. injection H as <-. exact H1.
Qed.
Lemma process_not_busy {A : arith} (I : conv_if A) e b e' o : eng_process I e b = Ok (e', o) -> e_cmd_busy I e' = 0.
Proof.
  unfold eng_process. destruct (eng_service I e) as [e1| |] eqn:E1; cbn [bind]; try discriminate.
  assert (H1 : e_cmd_busy I e1 = 0).
  { unfold eng_service in E1. open E1. injection E1 as <-. reflexivity. }
  destruct (e_fade I e1).
  - destruct (match e_strategy I e1 with kInOut => _ | kCrossfade => _ end) as [[e2 o2]| |] eqn:E2; cbn [bind]; try discriminate.
    assert (H2 : e_cmd_busy I e2 = 0).
    { rewrite <- H1. destruct (e_strategy I e1).
      - unfold eng_in_out in E2. destruct (sm_smoothing _); open E2; injection E2 as <- _; reflexivity.
      - unfold eng_crossfade in E2. open E2. injection E2 as <- _. reflexivity. }
    destruct (sm_smoothing _); cbn [bind].
    + intros H. injection H as <- _. exact H2.
    + intros H. open H. injection H as <- _. apply finish_not_busy in E. now rewrite E.
  - intros H. open H. injection H as <- _. exact H1.
Qed.
Lemma blocks_not_busy {A : arith} (I : conv_if A) bs : forall e e' outs, e_cmd_busy I e = 0 -> eng_run I e (map (Process I) bs) = Ok (e', outs) -> e_cmd_busy I e' = 0.
Proof.
  induction bs as [|b bs IH]; intros e e' outs H0 H; cbn [map eng_run eng_step] in H; [injection H as <- _; exact H0|].
  destruct (eng_process I e b) as [[e1 o]| |] eqn:E; cbn [bind] in H; try discriminate.
  destruct (eng_run I e1 _) as [[e2 os]| |] eqn:E2; cbn [bind] in H; try discriminate. injection H as <- _.
  eapply IH; [|exact E2]. eapply process_not_busy; eauto.
Qed.
Lemma block_mk {A : arith} w m (b : audio A) : block_of w m b -> mk w m (at_ b) = b.
Proof.
  intros [H1 H2]. apply (nth_ext _ _ [] []); rewrite mk_length; auto. intros c Hc. rewrite mk_nth by auto.
  apply (nth_ext _ _ s0 s0); rewrite tab_length.
  - symmetry. apply H2, nth_In. lia.
  - intros i Hi. rewrite tab_nth by auto. reflexivity.
Qed.

(** After a reset (or prepare) that found one convolver playing and one waiting in the queue, the next
    change is not faded: of the block in which the next convolver [h2] is received, the output is what [h2]
    makes of it, at its full level, and nothing of the convolver [h1] that was playing. *)
Theorem C36_abrupt_after_reset_refuted : forall (A : arith), arith_laws A ->
  forall (I : conv_if A) w ok, 0 < w -> accepting I w ok ->
  forall env l s e a h1, reached I w ok env l s e -> idle I e -> no_loads e -> e_conv I e = Some a -> e_commands I e = [h1] ->
  exists e1, eng_reset I e = Ok e1 /\ idle I e1 /\ e_conv I e1 = Some (silenced I h1) /\
  forall bs, fits w (ps_max_block s) bs -> forall h2, ok (h_cv I h2) -> forall m b, m <= ps_max_block s -> block_of w m b ->
  exists e2 outs out c, eng_run I e1 (map (Process I) bs ++ [Others I [Deliver I h2]; Process I b]) = Ok (e2, outs ++ [out]) /\
    (exists c1, feed (cv_process I) (cv_reset I (h_cv I h1)) bs = Ok (c1, outs)) /\
    cv_process I (h_cv I h2) b = Ok (c, out) /\
    idle I e2 /\ e_conv I e2 = Some {| h_id := h_id I h2; h_cv := c |}.
Proof.
  intros A L I w ok Hw HI env l s e a h1 HR [Hf Hp] Hn Ea Ec.
  destruct (reached_tracked I w ok Hw HI env l s e HR) as (Hsp & bd & Eb & Hi). assert (HM : 0 < ps_max_block s) by apply Hsp.
  destruct (reset_front I w ok Hw HI (ps_max_block s) bd e Hi) as (e1 & news & E & Hi1 & EF & Ecn & [_ HA]).
  destruct (HA Hn) as [-> Hn1]. rewrite Ec in EF.
  assert (EF1 : e_conv I e1 = Some (silenced I h1) /\ e_fade I e1 = None /\ e_pending I e1 = None /\
                sm_target (e_in I e1) = true /\ sm_target (e_out I e1) = false).
  { cbn [takes fold_left] in EF. unfold take in EF. cbn [rest front_of f_conv f_fade f_pend] in EF. rewrite Ea, Hf in EF.
    unfold settle, start in EF. cbn [f_conv f_fade f_pend f_in f_out f_strat front_of rest] in EF. injection EF as X1 X2 X3 X4 X5 X6.
    rewrite X1, X2, X3, X4, X5. repeat split; unfold sm_set_target, sm_reset; cbn [sm_target sm_set Bool.eqb sm_steps];
      destruct (_ <=? _)%Z; reflexivity. }
  clear EF. destruct EF1 as (F1 & F2 & F3 & F4 & F5).
  exists e1. split; [exact E|]. split; [split; assumption|]. split; [exact F1|]. intros bs Hbs h2 Hok m b Hm Hb.
  destruct (alone_run I w ok Hw HI (ps_max_block s) bd HM bs e1 Hbs Hi1 Hn1 ltac:(repeat split; assumption)) as (e2 & outs & E2 & Hi2 & Hn2 & (A1 & A2 & A3) & G1 & G2 & G3).
  rewrite F1 in G3. destruct G3 as (c1 & G3 & G4). cbn [silenced h_id h_cv] in G3, G4.
  pose proof (blocks_not_busy I bs e1 e2 outs (reset_not_busy I e e1 E) E2) as HB.
  set (e3 := acts I [Deliver I h2] e2).
  assert (E3 : e3 = add_log I [Delivered (h_id I h2)] (set_commands I [h2] 0 e2)).
  { unfold e3, acts. cbn [fold_left act]. rewrite A3, HB. reflexivity. }
  assert (Hi3 : inv I w ok (ps_max_block s) bd e3).
  { rewrite E3. destruct Hi2 as [[] [Q1 Q2]]. split; split; ecbn; auto. }
  destruct (process_front I w ok Hw HI _ bd e3 m b Hi3 HM Hm Hb) as (e4 & o & news & E4 & H4 & Ho & OB & N1 & _).
  set (F := takes I bd (e_commands I e3) (front_of I e3)) in OB.
  assert (HF : f_conv I F = Some {| h_id := h_id I h1; h_cv := c1 |} /\ f_fade I F = Some h2 /\ f_pend I F = None /\
     sm_target (f_in I F) = true /\ sm_count (f_in I F) = 0 /\ sm_target (f_out I F) = false /\ sm_count (f_out I F) = 0).
  { unfold F. rewrite E3. cbn [add_log set_commands e_commands takes fold_left]. unfold take. ecbn. cbn [f_conv front_of f_fade]. ecbn. rewrite G4, A1.
    unfold start. cbn [f_conv f_fade f_pend f_in f_out front_of]. ecbn. rewrite G4, G1, G2.
    unfold sm_set_target. cbn [sm_reset sm_target]. rewrite F4, F5. cbn [Bool.eqb]. repeat split; cbn [sm_target sm_reset sm_count]; auto. }
  clearbody F. destruct HF as (V1 & V2 & V3 & V4 & V5 & V6 & V7).
  assert (Hin : forall i, gain (f_in I F) i = s1) by (intros i; rewrite gain_done by lia; now rewrite V4).
  assert (Hout : forall i, gain (f_out I F) i = s0) by (intros i; rewrite gain_done by lia; now rewrite V6).
  assert (K : exists f' ob, proc I (Some h2) b = Ok (Some f', ob) /\ o = ob /\ e_conv I e4 = Some f' /\ e_fade I e4 = None /\ e_pending I e4 = None).
  { assert (Hfin : forall G f', f_fade I G = Some f' -> f_pend I G = None -> sm_count (f_in I G) = 0 -> front_of I e4 = check I bd G ->
       e_conv I e4 = Some f' /\ e_fade I e4 = None /\ e_pending I e4 = None).
    { intros G f' X1 X2 X3 X4. unfold check, sm_smoothing in X4. rewrite X3 in X4. cbn [Nat.ltb Nat.leb] in X4. unfold fin in X4. rewrite X2, X1 in X4.
      unfold front_of in X4. injection X4 as Y1 Y2 Y3 _ _ _. auto. }
    destruct (f_strat I F) eqn:Es.
    - destruct (ob_inout_in I w Hw bd m b _ _ _ h2 OB) as (f' & ob & P & Hob & EF' & EO); auto.
      exists f', ob. split; auto. split.
      + rewrite EO. transitivity (mk w m (at_ ob)); [|now apply block_mk]. apply mk_ext. intros c i Hc Hi'. rewrite Hin. apply (full_level L).
      + eapply Hfin; [| | |exact EF']; auto. cbn [with_smooth with_slots f_in]. rewrite sm_iter_count. lia.
    - destruct (ob_some I w bd m b _ _ _ h2 OB) as (c' & oa & f' & ob & _ & Hoa & P & Hob & EF' & EO); auto.
      exists f', ob. split; auto. split.
      + rewrite EO. transitivity (mk w m (at_ ob)); [|now apply block_mk]. apply mk_ext. intros c i Hc Hi'. rewrite Hin, Hout. apply (only_new L).
      + eapply Hfin; [| | |exact EF']; auto. cbn [with_smooth with_slots f_in]. rewrite sm_iter_count. lia. }
  destruct K as (f' & ob & P & -> & K1 & K2 & K3). apply (proc_some I) in P. destruct P as (c' & P & X). injection X as ->.
  exists e4, outs, ob, c'. split.
  - rewrite run_app, E2. cbn [bind eng_run eng_step app]. fold e3. rewrite E4. reflexivity.
  - split; [eauto|]. split; [exact P|]. split; [split; assumption|exact K1].
Qed.
(** 1 is playing and 2 has been received when reset is called; 2 is heard; then 3 is received, and heard at once
    instead of after a cross-fade (with the same loads and no reset, the fade to 2 alone takes 7 samples: [C36_example]). *)
Example C36_abrupt_example :
  let I := toy Zint in let h := toy_h kCrossfade in
  let l := [Others I [Deliver I (h 1)]; Process I [[1; 2; 3]%Z]; Others I [Deliver I (h 2)]] in
  exists e, reached I 1 (fun _ => True) [] (Prepare I small_spec :: l) small_spec e /\
    idle I e /\ no_loads e /\ option_map (h_id I) (e_conv I e) = Some 1 /\ e_commands I e = [h 2] /\
    match eng_run I e [Reset I; Process I [[1; 2]%Z]; Others I [Deliver I (h 3)]; Process I [[1; 2]%Z]; Process I [[1; 2]%Z]] with
    | Ok (e', outs) => line e' = [3] /\ outs = [[[2; 4]]; [[3; 6]]; [[3; 6]]]%Z
    | _ => False
    end.
Proof. intros. apply toy_reached; [reflexivity|]. vm_compute. repeat split. intros ? []. Qed.
Print Assumptions C36_abrupt_after_reset_refuted.

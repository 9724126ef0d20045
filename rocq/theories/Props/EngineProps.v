(** * C31-C39, C46, C47: the engine *)
From Coq Require Import Permutation.
From Verif.Model Require Import Base Arith ArithReal ArithMod Juce Float32 SmoothedValue Partitioning
     UniformPartitionedConvolver TimeDistributedNUPC Convolver ConvolutionEngine.
From Verif.Spec Require Import Transform RealFFT Signal Routing Engine.
From Verif.Proofs Require Import Lists Blocks Streams RealFFTProof FloatProof FadeProof SmoothProof EngineProof EngineInv EngineFront
     EngineCalm EngineRoom EngineRun EngineFade EngineMore.
From Verif.Props Require Import ConvolverProps.

(** ** A convolver for the examples: multiplies by a constant *)
Definition toy (A : arith) : conv_if A := {|
  cv := (sample A * Z * fade_strategy)%type;
  cv_process := fun c b => Ok (c, map (map (smul (fst (fst c)))) b);
  cv_reset := fun c => c;
  cv_samples := fun c => snd (fst c);
  cv_fade := fun c => snd c
|}.
Definition toy_held (A : arith) (i : nat) (g : sample A) (n : Z) (s : fade_strategy) : held (toy A) :=
  {| h_id := i; h_cv := (g, n, s) : cv (toy A) |}.
Lemma toy_accepting (A : arith) w : accepting (toy A) w (fun _ => True).
Proof.
  split; [|auto]. intros c m b _ [HL Hb]. eexists _, _. split; [reflexivity|]. split; auto. split; [now rewrite map_length|].
  intros x Hx. apply in_map_iff in Hx as (y & <- & Hy). rewrite map_length. auto.
Qed.
(** one channel, blocks of up to 16 samples, 10 samples a second: fades of 1 to 40 samples, in/out fades of
    2 times 4 samples, responses of 100 samples are long *)
Definition small_spec : process_spec := {| ps_rate_num := 10; ps_rate_den := 1; ps_max_block := 16; ps_channels := 1 |}.
Lemma small_spec_ok : spec_ok 1 small_spec.
Proof. unfold spec_ok, rate_ok. cbn. lia. Qed.
Example small_bounds : engine_bounds small_spec =
  Ok {| lower_fade_bound := 1; upper_fade_bound := 40; max_crossfade_ir_length := 100; in_out_fade_length := 4 |}%Z.
Proof. vm_compute. reflexivity. Qed.

(** ** C31 *)
(** Whatever the calls, the schedule and the convolvers: the convolvers handed over so far are those the
    engine owns now, each in one place, and those already destroyed, each once. *)
Theorem C31_one_place : forall (A : arith) (I : conv_if A) env l e outs,
  eng_run I (eng_new I env) l = Ok (e, outs) ->
  Permutation (handed_over (e_log I e)) (owned e ++ destroyed (e_log I e)).
Proof.
  intros A I env l e outs E. apply (Permutation_count_occ Nat.eq_dec). intros x.
  pose proof (run_bal I x l _ _ _ E) as H. unfold bal, got, have, oc, cnt in H. cbn in H.
  unfold owned. rewrite !count_occ_app. lia.
Qed.
(** The engine's destructor destroys the rest: every convolver once. *)
Theorem C31_destroyed_once : forall (A : arith) (I : conv_if A) env l e outs,
  eng_run I (eng_new I env) l = Ok (e, outs) ->
  Permutation (handed_over (e_log I e)) (destroyed (e_log I e ++ eng_destroy I e)).
Proof.
  intros A I env l e outs E. rewrite (C31_one_place A I env l e outs E), destroyed_app.
  rewrite Permutation_app_comm. apply Permutation_app_head. unfold owned, eng_destroy.
  rewrite !destroyed_app, !destroyed_destroy. do 3 apply Permutation_app_head.
  enough (H : destroyed (flat_map (fun h => destroy I Caller (Some h)) (e_commands I e)) = map (h_id I) (e_commands I e) /\
              destroyed (flat_map (destroy I Caller) (e_notes I e)) = flat_map slot_ids (e_notes I e)) by (destruct H as [-> ->]; reflexivity).
  split.
  - induction (e_commands I e) as [|h t IH]; cbn; [reflexivity|]. now f_equal.
  - induction (e_notes I e) as [|h t IH]; cbn [flat_map]; [reflexivity|]. now rewrite destroyed_app, IH, destroyed_destroy.
Qed.
(** In particular, when the convolvers handed over are different objects, none is in two places, none
    is destroyed twice and none is in use after its destruction. *)
Theorem C31_no_use_after_destruction : forall (A : arith) (I : conv_if A) env l e outs,
  eng_run I (eng_new I env) l = Ok (e, outs) -> NoDup (handed_over (e_log I e)) ->
  NoDup (owned e) /\ NoDup (destroyed (e_log I e)) /\
  forall i, In i (owned e) -> ~ In i (destroyed (e_log I e)).
Proof.
  intros A I env l e outs E HN.
  pose proof (Permutation_NoDup (C31_one_place A I env l e outs E) HN) as H. clear - H.
  revert H. generalize (destroyed (e_log I e)). induction (owned e) as [|x t IH]; cbn [app]; intros d H.
  - split; [constructor|]. split; auto.
  - inversion H as [|? ? Hx Ht]; subst. destruct (IH d Ht) as (H1 & H2 & H3).
    rewrite in_app_iff in Hx. split; [constructor; tauto|]. split; auto. intros i [<-|Hi]; [tauto|auto].
Qed.
Example C31_example :
  let I := toy Zint in
  let h i := toy_held Zint i 1%Z 50%Z kCrossfade in
  match eng_run I (eng_new I [[]; []; [Deliver I (h 3); Dispose I; Release I]])
        [Prepare I small_spec; Others I [Deliver I (h 1); Deliver I (h 2)]; Process I [[1; 2; 3]%Z];
         Others I [Deliver I (h 4)]; Process I [[1; 2; 3]%Z]; Process I [[1; 3]%Z]; Others I [Dispose I];
         Process I [[1; 3]%Z]; Process I [[1; 3]%Z]] with
  | Ok (e, _) => handed_over (e_log I e) = [1; 2; 3; 4] /\ owned e = [2; 4; 1] /\ destroyed (e_log I e) = [3]
  | _ => False
  end.
Proof. vm_compute. repeat split. Qed.
Print Assumptions C31_one_place.
Print Assumptions C31_destroyed_once.
Print Assumptions C31_no_use_after_destruction.

(** ** C32 *)
(** [e_note_busy]: slots of the notification queue the background thread has emptied but not yet released. *)
Theorem C32_no_destruction_in_process : forall (A : arith) (I : conv_if A) e b e' out,
  length (e_notes I e) + e_note_busy I e + length (e_commands I e) < queue_capacity ->
  eng_process I e b = Ok (e', out) ->
  exists d, e_log I e' = e_log I e ++ d /\ destroyed_by Caller d = [] /\
    forall i, In i (line e) -> In i (line e') \/ In i (flat_map slot_ids (e_notes I e')) \/ In i (destroyed d).
Proof.
  intros A I e b e' out HR E. destruct (process_room I e b e' out HR E) as (d & Ed & Hd).
  exists d. split; auto. split; auto. intros i Hi.
  pose proof (process_bal I i e b e' out E) as H. unfold bal, got, have in H.
  rewrite Ed, handed_app, destroyed_app, !cnt_app in H.
  assert (HL : forall e : engine I, cnt i (line e) = oc I i (e_conv I e) + oc I i (e_fade I e) + oc I i (e_pending I e) + cnt i (map (h_id I) (e_commands I e))).
  { intros x. unfold line, in_line, oc. rewrite !map_app, !cnt_app. destruct (e_conv I x), (e_fade I x), (e_pending I x); cbn [map slot_ids]; lia. }
  apply (count_occ_In Nat.eq_dec) in Hi. fold (cnt i (line e)) in Hi.
  pose proof (HL e) as H1. pose proof (HL e') as H2.
  destruct (in_dec Nat.eq_dec i (line e')) as [?|N1]; [auto|].
  destruct (in_dec Nat.eq_dec i (flat_map slot_ids (e_notes I e'))) as [?|N2]; [auto|].
  right. right. apply (count_occ_In Nat.eq_dec). fold (cnt i (destroyed d)).
  apply (count_occ_not_In Nat.eq_dec) in N1, N2. fold (cnt i (line e')) in N1. fold (cnt i (flat_map slot_ids (e_notes I e'))) in N2.
  lia.
Qed.
(** 401 loads, each with a fade, and a background thread that does not get to run: the calling thread
    destroys a convolver. *)
Definition many_loads : list (op (toy Zint)) :=
  Prepare (toy Zint) small_spec ::
  flat_map (fun i => [Others (toy Zint) [Deliver (toy Zint) (toy_held Zint i 1%Z 1%Z kCrossfade)]; Process (toy Zint) [[5]%Z]]) (seq 0 400)
  ++ [Others (toy Zint) [Deliver (toy Zint) (toy_held Zint 400 1%Z 1%Z kCrossfade)]].
Lemma many_loads_run : 
  match eng_run (toy Zint) (eng_new (toy Zint) []) many_loads with
  | Ok (e, outs) => match eng_process (toy Zint) e [[5]%Z] with
                    | Ok (e', out) => e_log _ e' = e_log _ e ++ [Destroyed Caller 399]
                    | _ => False
                    end
  | _ => False
  end.
Proof. vm_compute. reflexivity. Qed.
Theorem C32_without_room_refuted : exists l b e e' out outs d,
  eng_run (toy Zint) (eng_new (toy Zint) []) l = Ok (e, outs) /\
  legal (toy Zint) 1 (fun _ => True) None (l ++ [Process (toy Zint) b]) /\
  eng_process (toy Zint) e b = Ok (e', out) /\ e_log _ e' = e_log _ e ++ d /\ destroyed_by Caller d = [399].
Proof.
  pose proof many_loads_run as H.
  destruct (eng_run (toy Zint) (eng_new (toy Zint) []) many_loads) as [[e outs]| |] eqn:E; [|destruct H|destruct H].
  destruct (eng_process (toy Zint) e [[5]%Z]) as [[e' out]| |] eqn:E'; [|destruct H|destruct H].
  exists many_loads, [[5]%Z], e, e', out, outs, [Destroyed Caller 399]. split; [exact E|]. split; [|split; [exact E'|split; [exact H|reflexivity]]].
  clear. set (I := toy Zint).
  assert (HP : exists M m, Some 16 = Some M /\ m <= M /\ block_of 1 m ([[5%Z]] : audio Zint)).
  { exists 16, 1. split; auto. split; [lia|]. split; auto. intros c [<-|[]]. reflexivity. }
  assert (HL : forall t, legal I 1 (fun _ => True) (Some 16) t -> forall n k,
             legal I 1 (fun _ => True) (Some 16) (flat_map (fun i => [Others I [Deliver I (toy_held Zint i 1%Z 1%Z kCrossfade)]; Process I [[5]%Z]]) (seq k n) ++ t)).
  { intros t Ht. induction n as [|n IH]; intros k; [exact Ht|]. cbn [seq flat_map app legal]. split; [intros ? ?; exact Logic.I|]. split; [exact HP|apply IH]. }
  unfold many_loads. rewrite <- app_comm_cons, <- app_assoc. cbn [legal]. split; [exact small_spec_ok|]. apply HL. cbn [app legal].
  split; [intros ? ?; exact Logic.I|]. split; [exact HP|exact Logic.I].
Qed.
Example C32_example :
  let I := toy Zint in
  let h i := toy_held Zint i 1%Z 1%Z kCrossfade in
  match eng_run I (eng_new I [])
        [Prepare I small_spec; Others I [Deliver I (h 1); Deliver I (h 2)]] with
  | Ok (e, _) => length (e_notes I e) + e_note_busy I e + length (e_commands I e) = 2 /\ line e = [1; 2] /\
      match eng_process I e [[1; 2; 3]%Z] with
      | Ok (e', _) => line e' = [2] /\ flat_map slot_ids (e_notes I e') = [1]
      | _ => False
      end
  | _ => False
  end.
Proof. vm_compute. repeat split. Qed.
Print Assumptions C32_no_destruction_in_process.
Print Assumptions C32_without_room_refuted.

(** ** Reached states *)
Section Histories.
  Context {A : arith} (I : conv_if A).
  Lemma undisturbed_unhurried e l : undisturbed I e l -> unhurried e l.
  Proof. intros H l1 o l2 e1 outs E1 E2 E3. destruct (H l1 o l2 e1 outs E1 E2 E3) as [?|[_ ?]]; lia. Qed.
  (** Histories in which prepare, called once at the beginning, is the only such call. *)
  Lemma once_undisturbed env s l : (forall o, In o l -> ~ restarts o) -> undisturbed I (eng_new I env) (Prepare I s :: l).
  Proof.
    intros H l1 o l2 e1 outs E1 E2 E3. destruct l1 as [|x l1].
    - cbn in E3. injection E3 as <- _. left. cbn. lia.
    - injection E1 as _ ->. exfalso. apply (H o); auto. apply in_app_iff. right. now left.
  Qed.
End Histories.
Section Reach.
  Context {A : arith} (I : conv_if A).
  Variable w : nat.
  Variable ok : cv I -> Prop.
  Hypothesis Hw : 0 < w.
  Hypothesis HI : accepting I w ok.

  Lemma reached_tracked env l s e : reached I w ok env l s e -> spec_ok w s /\ exists b, engine_bounds s = Ok b /\ inv I w ok (ps_max_block s) b e.
  Proof.
    intros (He & Hl & Hs & outs & E).
    assert (HT : tracked I w ok None (eng_new I env)) by exact (proj1 (good_new I w ok env He)).
    enough (H : forall l p e0 e1 outs, tracked I w ok p e0 -> legal I w ok (option_map ps_max_block p) l ->
               eng_run I e0 l = Ok (e1, outs) -> tracked I w ok (last_spec p l) e1).
    { specialize (H l None _ _ _ HT Hl E). rewrite Hs in H. exact H. }
    clear - Hw HI. induction l as [|o l IH]; intros p e0 e1 outs HT Hl E.
    { cbn in *. injection E as <- <-. exact HT. }
    apply legal_cons in Hl as [Ho Hl]. cbn [eng_run] in E.
    destruct (eng_step I e0 o) as [[e2 x]| |] eqn:E1; cbn [bind] in E; try discriminate.
    destruct (eng_run I e2 l) as [[e3 xs]| |] eqn:E2; cbn [bind] in E; try discriminate. injection E as <- <-.
    rewrite last_spec_cons. rewrite (last_spec_prepared I p o) in Hl.
    apply (IH _ e2 e3 xs); auto. clear IH E2 Hl.
    destruct o as [s|b| | |acts]; cbn [last_spec].
    - cbn in Ho. destruct (prepare_front I w ok Hw HI p e0 s (proj1 Ho) HT) as (b & e' & news & Eb & Ep & Hi & _).
      cbn [eng_step] in E1. rewrite Ep in E1. cbn in E1. injection E1 as <- _. split; [apply Ho|]. eauto.
    - destruct Ho as [(M & m & EM & Hm & Hb) _]. destruct p as [s|]; [|discriminate]. cbn in EM. injection EM as <-.
      destruct HT as (Hsp & bd & Eb & Hi). destruct (process_front I w ok Hw HI (ps_max_block s) bd e0 m b Hi) as (e' & o & news & Ep & Hi' & _); auto.
      { apply Hsp. }
      cbn [eng_step] in E1. rewrite Ep in E1. cbn in E1. injection E1 as <- _. split; eauto.
    - destruct Ho as [Ho _]. destruct p as [s|]; [|cbn in Ho; congruence]. destruct HT as (Hsp & bd & Eb & Hi).
      destruct (reset_front I w ok Hw HI (ps_max_block s) bd e0 Hi) as (e' & news & Ep & Hi' & _).
      cbn [eng_step] in E1. rewrite Ep in E1. cbn in E1. injection E1 as <- _. split; eauto.
    - destruct Ho as [Ho _]. destruct p as [s|]; [|cbn in Ho; congruence]. destruct HT as (Hsp & bd & Eb & Hi).
      destruct (clear_front I w ok Hw HI (ps_max_block s) bd e0 Hi) as (e' & news & Ep & Hi' & _).
      cbn [eng_step] in E1. rewrite Ep in E1. cbn in E1. injection E1 as <- _. split; eauto.
    - destruct Ho as [Ho _]. cbn [eng_step] in E1. injection E1 as <- _. destruct p as [s|].
      + destruct HT as (Hsp & bd & Eb & [Hi Hq]). split; auto. exists bd. split; auto. split.
        * pose proof (acts_slots I acts e0) as (S1 & S2 & S3 & _ & _ & S6 & S7 & _).
          eapply sok_same; eauto.
        * now apply acts_q.
      + destruct HT as (H1 & H2 & H3 & Hq). pose proof (acts_slots I acts e0) as (S1 & S2 & S3 & _).
        repeat split; try congruence; now apply acts_q.
  Qed.
  Lemma reached_good env l s e : reached I w ok env l s e -> unhurried (eng_new I env) l -> good I w ok (Some s) e.
  Proof.
    intros (He & Hl & Hs & outs & E) Hu. rewrite <- Hs.
    eapply good_run; eauto. now apply good_new.
  Qed.
  Lemma reached_rest env l s e : reached I w ok env l s e -> undisturbed I (eng_new I env) l -> idle I e -> at_rest e.
  Proof.
    intros (He & Hl & Hs & outs & E) Hu [Hf Hp].
    destruct (rest_run I w ok Hw HI l None (eng_new I env) e outs) as [H1 H2]; auto.
    - now apply good_new.
    - congruence.
    - now apply undisturbed_unhurried.
    - intros l1 o l2 e1 o1 E1 E2 E3. destruct (Hu l1 o l2 e1 o1 E1 E2 E3) as [?|[? _]]; auto.
    - rewrite Hs. discriminate.
    - repeat split; auto.
  Qed.
End Reach.

(** ** C33 *)
Theorem C33_newest_wins : forall (A : arith) (I : conv_if A) w ok, 0 < w -> accepting I w ok ->
  forall env l s e b,
  reached I w ok env l s e -> unhurried (eng_new I env) l -> no_loads e -> engine_bounds s = Ok b ->
  forall bs, fits w (ps_max_block s) bs -> settling_time b (ps_max_block s) <= total bs ->
  exists e' outs, eng_run I e (map (Process I) bs) = Ok (e', outs) /\
    line e' = (match latest None (e_log I e) with Some i => [i] | None => [] end) /\
    plays w (ps_max_block s) e' (e_conv I e').
Proof.
  intros A I w ok Hw HI env l s e b HR Hu Hn Eb bs Hf Ht.
  pose proof (reached_good I w ok Hw HI env l s e HR Hu) as HG.
  destruct (settles I w ok Hw HI s e bs HG Hn Hf b Eb Ht) as (e' & outs & E & HG' & Hn' & Ha & HL & _).
  exists e', outs. split; auto. destruct Ha as (A1 & A2 & A3). split.
  - rewrite HL. unfold line, in_line. rewrite A1, A2, A3. destruct (e_conv I e') as [h|]; reflexivity.
  - destruct HG' as ((Hsp & bd & Ebd & Hi) & _). eapply alone_plays; eauto; [apply Hsp|]. repeat split; auto.
Qed.
(** in particular: when prepare was called once, at the beginning, whatever was loaded *)
Theorem C33_newest_wins_without_restarts : forall (A : arith) (I : conv_if A) w ok, 0 < w -> accepting I w ok ->
  forall env l s e b,
  reached I w ok env (Prepare I s :: l) s e -> (forall o, In o l -> ~ restarts o) -> no_loads e -> engine_bounds s = Ok b ->
  forall bs, fits w (ps_max_block s) bs -> settling_time b (ps_max_block s) <= total bs ->
  exists e' outs, eng_run I e (map (Process I) bs) = Ok (e', outs) /\
    line e' = (match latest None (e_log I e) with Some i => [i] | None => [] end) /\
    plays w (ps_max_block s) e' (e_conv I e').
Proof.
  intros A I w ok Hw HI env l s e b HR Hl. eapply C33_newest_wins; eauto.
  apply undisturbed_unhurried, once_undisturbed. exact Hl.
Qed.
(** a way to check examples: the history is legal, and what is reached *)
Definition toy_legal (l : list (op (toy Zint))) : bool :=
  forallb (fun o => match o with Process _ [b] => length b <=? 16 | Process _ _ | Prepare _ _ => false | _ => true end) l.
Lemma toy_legal_ok l : toy_legal l = true -> legal (toy Zint) 1 (fun _ => True) None (Prepare (toy Zint) small_spec :: l).
Proof.
  intros H. split; [exact small_spec_ok|]. cbn [ps_max_block small_spec]. revert H. induction l as [|o l IH]; intros H; [exact Logic.I|].
  cbn [toy_legal forallb] in H. apply andb_true_iff in H as [Ho H]. specialize (IH H).
  destruct o as [s|b| | |acts]; cbn [legal]; try discriminate Ho; try (split; [discriminate|exact IH]).
  - split; [|exact IH]. destruct b as [|b [|? ?]]; try discriminate Ho. apply Nat.leb_le in Ho.
    exists 16, (length b). split; auto. split; auto. split; auto. intros c [<-|[]]. reflexivity.
  - split; [|exact IH]. intros ? ?. exact Logic.I.
Qed.
Lemma toy_reached env l (Q : engine (toy Zint) -> Prop) : toy_legal l = true ->
  match eng_run (toy Zint) (eng_new (toy Zint) env) (Prepare (toy Zint) small_spec :: l) with Ok (e, _) => Q e | _ => False end ->
  exists e, reached (toy Zint) 1 (fun _ => True) env (Prepare (toy Zint) small_spec :: l) small_spec e /\ Q e.
Proof.
  intros Hl H. destruct (eng_run _ _ _) as [[e outs]| |] eqn:E; [|destruct H|destruct H].
  exists e. split; [|exact H]. split; [apply Forall_forall; intros ? ? ? ?; exact Logic.I|]. split; [now apply toy_legal_ok|].
  split; [|eauto]. clear - Hl. cbn [last_spec]. induction l as [|o l IH]; [reflexivity|]. cbn [toy_legal forallb] in Hl.
  apply andb_true_iff in Hl as [Ho Hl]. destruct o; try discriminate Ho; cbn [last_spec]; now apply IH.
Qed.
Definition toy_h (s : fade_strategy) (i : nat) := toy_held Zint i (Z.of_nat i) 50%Z s.
(** three loads during a fade *)
Example C33_example :
  let I := toy Zint in let h := toy_h kCrossfade in
  let l := [Others I [Deliver I (h 1); Deliver I (h 2)]; Process I [[1; 2; 3]%Z];
            Others I [Deliver I (h 3)]; Process I [[1; 2; 3]%Z]; Others I [Deliver I (h 4)]] in
  exists e, reached I 1 (fun _ => True) [] (Prepare I small_spec :: l) small_spec e /\
    line e = [1; 2; 3; 4] /\ latest None (e_log I e) = Some 4 /\ e_env I e = [] /\
    match engine_bounds small_spec with Ok b => settling_time b 16 = 112 | _ => False end /\
    match eng_run I e (map (Process I) (repeat [repeat 1%Z 16] 7)) with
    | Ok (e', outs) => line e' = [4] /\ last outs [] = [repeat 4%Z 16]
    | _ => False
    end.
Proof. intros. apply toy_reached; [reflexivity|]. vm_compute. repeat split. Qed.
Print Assumptions C33_newest_wins.
Print Assumptions C33_newest_wins_without_restarts.

(** ** C34, C35 *)
Section Restart.
  Context {A : arith} (I : conv_if A).
  Variable w : nat.
  Variable ok : cv I -> Prop.
  Hypothesis Hw : 0 < w.
  Hypothesis HI : accepting I w ok.

  Lemma take_length bd F h : fcalm I F -> length (fids I (take I bd F h)) = Nat.min 3 (S (length (fids I F))).
  Proof.
    intros [H1 H2]. unfold take, fids. destruct (f_conv I F) as [c|] eqn:E1; cbn [f_conv f_fade f_pend].
    - destruct (f_fade I F) as [f|] eqn:E2; cbn [f_conv f_fade f_pend start].
      + rewrite ?E1, ?E2. destruct (f_pend I F); reflexivity.
      + rewrite ?E1, H2 by auto. reflexivity.
    - rewrite H1 in * by auto. rewrite H2 by auto. reflexivity.
  Qed.
  Lemma takes_length bd l : forall F, fcalm I F -> length (fids I (takes I bd l F)) = Nat.min 3 (length (fids I F) + length l).
  Proof.
    induction l as [|h l IH]; intros F HF; cbn [takes fold_left length].
    - unfold fids. rewrite !app_length. destruct (f_conv I F), (f_fade I F), (f_pend I F); reflexivity.
    - fold (takes I bd l (take I bd F h)). rewrite IH by (now apply take_calm). rewrite take_length by auto. lia.
  Qed.
  Lemma rest_calm e : calm I e -> fcalm I (rest I (front_of I e)).
  Proof. intros [H _]. exact H. Qed.
  Lemma rest_length e : length (fids I (rest I (front_of I e))) + length (e_commands I e) = length (line e).
  Proof. rewrite (line_front I e), app_length, map_length. reflexivity. Qed.
  Lemma settle_idle bd e : calm I e ->
    (f_fade I (settle I (takes I bd (e_commands I e) (rest I (front_of I e)))) = None <-> length (line e) <= 2).
  Proof.
    intros HC. pose proof (takes_length bd (e_commands I e) _ (rest_calm e HC)) as HL. rewrite rest_length in HL.
    destruct (takes_calm I bd (e_commands I e) _ (rest_calm e HC)) as ((C1 & C2) & _).
    remember (takes I bd (e_commands I e) (rest I (front_of I e))) as F eqn:EF. clear EF.
    unfold settle, fids in *. rewrite !app_length in HL.
    destruct (f_conv I F) eqn:E1, (f_fade I F) eqn:E2, (f_pend I F) eqn:E3; cbn [f_fade slot_ids length] in *;
      try (specialize (C1 eq_refl); discriminate); try (specialize (C2 eq_refl); discriminate);
      (split; [intros X; try discriminate X; lia | intros X; try reflexivity; lia]).
  Qed.
  Lemma settle_pend F : f_pend I (settle I F) = None.
  Proof. unfold settle. destruct (f_pend I F), (f_fade I F); reflexivity. Qed.
  Lemma last_hd (l : list (held I)) : last_of I l = hd_error (rev l).
  Proof. unfold last_of. destruct (rev l); reflexivity. Qed.

  Lemma restarted M bd e e' news : 0 < M -> calm I e -> inv I w ok M bd e' -> front_of I e' = settle I (takes I bd (e_commands I e) (rest I (front_of I e))) ->
    e_commands I e' = news -> adds I e e' news -> length (line e) <= 2 ->
    idle I e' /\ e_conv I e' = option_map (silenced I) (hd_error (rev (in_line e))) /\ (no_loads e -> plays w M e' (e_conv I e')).
  Proof.
    intros HM HC Hi EF Ec [_ Hn] HL.
    assert (Hid : idle I e').
    { split; [change (f_fade I (front_of I e') = None); rewrite EF; now apply settle_idle|].
      change (f_pend I (front_of I e') = None). rewrite EF. apply settle_pend. }
    split; auto. split.
    - change (f_conv I (front_of I e') = option_map (silenced I) (hd_error (rev (in_line e)))).
      rewrite EF, (settled_conv I w Hw bd e HC HL), last_hd. destruct (hd_error (rev (in_line e))); reflexivity.
    - intros H. destruct (Hn H) as [-> H']. apply (alone_plays I w ok Hw HI M bd); auto. destruct Hid. repeat split; auto.
  Qed.

  (** one block while a fade is not moving *)
  Lemma stuck_block M bd e f m b : 0 < M -> inv I w ok M bd e -> no_loads e -> e_fade I e = Some f -> e_pending I e = None -> e_commands I e = [] ->
    sm_count (e_in I e) = 0 -> sm_count (e_out I e) = 0 -> m <= M -> block_of w m b ->
    exists e' out c, eng_process I e b = Ok (e', out) /\ inv I w ok M bd e' /\ no_loads e' /\ alone I e' /\ e_conv I e' = Some (renew I f c).
  Proof.
    intros HM Hi Hn Ef Ep Ec Hci Hco Hm Hb.
    destruct (process_front I w ok Hw HI M bd e m b Hi HM Hm Hb) as (e' & o & news & E & Hi' & _ & HO & Ecn & [_ HA]).
    destruct (HA Hn) as [-> Hn']. rewrite Ec in HO. cbn [takes fold_left] in HO.
    assert (Hpf : forall h h' o, proc I (Some h) b = Ok (Some h', o) -> exists c, h' = renew I h c).
    { intros h h' o' Hp. destruct (proc_some I _ _ _ _ Hp) as (c & _ & X). injection X as ->. eauto. }
    assert (HF : exists c F0, front_of I e' = fin I bd F0 /\ f_fade I F0 = Some (renew I f c) /\ f_pend I F0 = None).
    { destruct (f_strat I (front_of I e)) eqn:Es.
      - destruct (ob_inout_in I w Hw bd m b _ _ _ f HO) as (f' & ob & Hp & _ & EF' & _); auto.
        destruct (Hpf _ _ _ Hp) as (c & ->). exists c. eexists. split; [|split].
        + rewrite EF'. unfold check. cbn [with_smooth f_in]. unfold sm_smoothing. rewrite sm_iter_count. cbn [front_of f_in]. rewrite Hci. reflexivity.
        + reflexivity.
        + exact Ep.
      - destruct (ob_some I w bd m b _ _ _ f HO) as (c' & oa & f' & ob & _ & _ & Hp & _ & EF' & _); auto.
        destruct (Hpf _ _ _ Hp) as (c & ->). exists c. eexists. split; [|split].
        + rewrite EF'. unfold check. cbn [with_smooth f_in]. unfold sm_smoothing. rewrite sm_iter_count. cbn [front_of f_in]. rewrite Hci. reflexivity.
        + reflexivity.
        + exact Ep. }
    destruct HF as (c & F0 & EF & Hf0 & Hp0). exists e', o, c. split; auto. split; auto. split; auto.
    unfold fin in EF. rewrite Hp0, Hf0 in EF. injection EF as X1 X2 X3 _ _ _. repeat split; auto.
  Qed.
End Restart.

(** reset (and prepare, which ends by calling it) when at most two convolvers are in line *)
Theorem C34_reset : forall (A : arith) (I : conv_if A) w ok, 0 < w -> accepting I w ok ->
  forall env l s e,
  reached I w ok env l s e -> unhurried (eng_new I env) l -> length (line e) <= 2 ->
  latest None (e_log I e) = hd_error (rev (line e)) /\
  exists e', eng_reset I e = Ok e' /\ idle I e' /\
    e_conv I e' = option_map (silenced I) (hd_error (rev (in_line e))) /\
    (no_loads e -> plays w (ps_max_block s) e' (e_conv I e')).
Proof.
  intros A I w ok Hw HI env l s e HR Hu HL.
  destruct (reached_good I w ok Hw HI env l s e HR Hu) as ((Hsp & bd & Eb & Hi) & HC & _).
  split; [rewrite (proj2 HC); unfold newest; destruct (rev (line e)); reflexivity|].
  destruct (reset_front I w ok Hw HI (ps_max_block s) bd e Hi) as (e' & news & E & Hi' & EF & Ec & HA).
  exists e'. split; auto. eapply restarted; eauto. apply Hsp.
Qed.
Theorem C34_prepare : forall (A : arith) (I : conv_if A) w ok, 0 < w -> accepting I w ok ->
  forall env l s e s',
  reached I w ok env l s e -> unhurried (eng_new I env) l -> length (line e) <= 2 -> spec_ok w s' ->
  exists e', eng_prepare I e s' = Ok e' /\ idle I e' /\
    e_conv I e' = option_map (silenced I) (hd_error (rev (in_line e))) /\
    (no_loads e -> plays w (ps_max_block s') e' (e_conv I e')).
Proof.
  intros A I w ok Hw HI env l s e s' HR Hu HL Hs'.
  destruct (reached_good I w ok Hw HI env l s e HR Hu) as (HT & HC & _).
  destruct (prepare_front I w ok Hw HI (Some s) e s' Hs' HT) as (bd & e' & news & Eb & E & Hi' & EF & Ec & HA).
  exists e'. split; auto. eapply restarted; eauto. apply Hs'.
Qed.
(** With three or more it always goes wrong: a convolver is left behind in the middle of its fade. *)
Theorem C34_exactly_then : forall (A : arith) (I : conv_if A) w ok, 0 < w -> accepting I w ok ->
  forall env l s e,
  reached I w ok env l s e -> unhurried (eng_new I env) l ->
  exists e', eng_reset I e = Ok e' /\ (idle I e' <-> length (line e) <= 2).
Proof.
  intros A I w ok Hw HI env l s e HR Hu.
  destruct (reached_good I w ok Hw HI env l s e HR Hu) as ((Hsp & bd & Eb & Hi) & HC & _).
  destruct (reset_front I w ok Hw HI (ps_max_block s) bd e Hi) as (e' & news & E & Hi' & EF & Ec & HA).
  exists e'. split; auto. rewrite <- (settle_idle I w Hw bd e HC). rewrite <- EF. unfold idle. cbn [f_fade front_of].
  split; [tauto|]. intros H. split; auto. change (f_pend I (front_of I e') = None). rewrite EF. apply settle_pend.
Qed.
(** Then, when a fade was running, the convolver heard after the next block is the one that was fading
    in, [f]; the newest, [p], is gone. *)
Theorem C34_reset_during_fade_refuted : forall (A : arith) (I : conv_if A) w ok, 0 < w -> accepting I w ok ->
  forall env l s e f p,
  reached I w ok env l s e -> e_fade I e = Some f -> e_pending I e = Some p -> e_commands I e = [] -> no_loads e ->
  forall m b, m <= ps_max_block s -> block_of w m b ->
  exists e1 e2 out c, eng_reset I e = Ok e1 /\ e_conv I e1 = Some (silenced I p) /\
    eng_process I e1 b = Ok (e2, out) /\ line e2 = [h_id I f] /\
    plays w (ps_max_block s) e2 (Some {| h_id := h_id I f; h_cv := c |}).
Proof.
  intros A I w ok Hw HI env l s e f p HR Ef Ep Ec Hn m b Hm Hb.
  destruct (reached_tracked I w ok Hw HI env l s e HR) as (Hsp & bd & Eb & Hi).
  destruct (reset_front I w ok Hw HI (ps_max_block s) bd e Hi) as (e1 & news & E & Hi1 & EF & Ecn & [_ HA]).
  destruct (HA Hn) as [-> Hn1]. rewrite Ec in EF. cbn [takes fold_left] in EF. unfold settle in EF. cbn [rest f_pend f_fade front_of f_in f_out f_strat f_conv] in EF.
  rewrite Ep, Ef in EF. injection EF as X1 X2 X3 X4 X5 X6.
  destruct (stuck_block I w ok Hw HI (ps_max_block s) bd e1 f m b) as (e2 & out & c & E2 & Hi2 & Hn2 & Ha & Ecv); auto.
  { apply Hsp. } { now rewrite X4. } { now rewrite X5. }
  exists e1, e2, out, c. split; auto. split; auto. split; auto.
  destruct Ha as (A1 & A2 & A3). split.
  - unfold line, in_line. rewrite A1, A2, A3, Ecv. reflexivity.
  - change (Some _) with (Some (renew I f c)). rewrite <- Ecv. apply (alone_plays I w ok Hw HI (ps_max_block s) bd); auto; [apply Hsp|]. repeat split; auto.
Qed.
(** a history where it happens: load 1, load 2 and 3 during the fade; reset; 2 is heard, not 3 *)
Example C34_refuted_example :
  let I := toy Zint in let h := toy_h kCrossfade in
  let l := [Others I [Deliver I (h 1); Deliver I (h 2); Deliver I (h 3)]; Process I [[1; 2; 3]%Z]] in
  exists e, reached I 1 (fun _ => True) [] (Prepare I small_spec :: l) small_spec e /\
    line e = [1; 2; 3] /\ option_map (h_id I) (e_fade I e) = Some 2 /\ option_map (h_id I) (e_pending I e) = Some 3 /\
    e_commands I e = [] /\ e_env I e = [] /\
    match eng_run I e [Reset I; Process I [[1; 2]%Z]; Process I [[1; 2]%Z]] with
    | Ok (e', outs) => line e' = [2] /\ outs = [[[3; 6]]; [[2; 4]]]%Z
    | _ => False
    end.
Proof. intros. apply toy_reached; [reflexivity|]. vm_compute. repeat split. Qed.
Example C34_example :
  let I := toy Zint in let h := toy_h kCrossfade in
  let l := [Others I [Deliver I (h 1); Deliver I (h 2)]; Process I [[1; 2; 3]%Z]] in
  exists e, reached I 1 (fun _ => True) [] (Prepare I small_spec :: l) small_spec e /\
    line e = [1; 2] /\ e_env I e = [] /\
    match eng_run I e [Reset I; Process I [[1; 2]%Z]; Process I [[1; 2]%Z]] with
    | Ok (e', outs) => line e' = [2] /\ outs = [[[2; 4]]; [[2; 4]]]%Z
    | _ => False
    end.
Proof. intros. apply toy_reached; [reflexivity|]. vm_compute. repeat split. Qed.
Print Assumptions C34_reset.
Print Assumptions C34_prepare.
Print Assumptions C34_exactly_then.
Print Assumptions C34_reset_during_fade_refuted.

Theorem C35_clear : forall (A : arith) (I : conv_if A) w ok, 0 < w -> accepting I w ok ->
  forall env l s e,
  reached I w ok env l s e -> unhurried (eng_new I env) l -> length (line e) <= 2 ->
  exists e', eng_clear I e = Ok e' /\ idle I e' /\ e_conv I e' = None /\
    (no_loads e -> line e' = [] /\ plays w (ps_max_block s) e' None).
Proof.
  intros A I w ok Hw HI env l s e HR Hu HL.
  destruct (reached_good I w ok Hw HI env l s e HR Hu) as ((Hsp & bd & Eb & Hi) & HC & _).
  destruct (clear_front I w ok Hw HI (ps_max_block s) bd e Hi) as (e' & news & E & Hi' & EF & Ec & _ & HA).
  cbv zeta in EF. injection EF as X1 X2 X3 _ _ _. apply (settle_idle I w Hw bd e HC) in HL. rewrite HL in X2.
  exists e'. split; auto. split; [split; auto|]. split; auto. intros H. destruct (HA H) as [-> Hn].
  split; [unfold line, in_line; now rewrite X1, X2, X3, Ec|].
  rewrite <- X1. apply (alone_plays I w ok Hw HI (ps_max_block s) bd); auto; [apply Hsp|]. repeat split; auto.
Qed.
Theorem C35_exactly_then : forall (A : arith) (I : conv_if A) w ok, 0 < w -> accepting I w ok ->
  forall env l s e,
  reached I w ok env l s e -> unhurried (eng_new I env) l ->
  exists e', eng_clear I e = Ok e' /\ (idle I e' <-> length (line e) <= 2).
Proof.
  intros A I w ok Hw HI env l s e HR Hu.
  destruct (reached_good I w ok Hw HI env l s e HR Hu) as ((Hsp & bd & Eb & Hi) & HC & _).
  destruct (clear_front I w ok Hw HI (ps_max_block s) bd e Hi) as (e' & news & E & Hi' & EF & Ec & _ & HA).
  cbv zeta in EF. injection EF as X1 X2 X3 _ _ _.
  exists e'. split; auto. rewrite <- (settle_idle I w Hw bd e HC), <- X2. unfold idle. tauto.
Qed.
(** When a fade was running, the convolver that was fading in comes back. *)
Theorem C35_clear_during_fade_refuted : forall (A : arith) (I : conv_if A) w ok, 0 < w -> accepting I w ok ->
  forall env l s e f p,
  reached I w ok env l s e -> e_fade I e = Some f -> e_pending I e = Some p -> e_commands I e = [] -> no_loads e ->
  forall m b, m <= ps_max_block s -> block_of w m b ->
  exists e1 e2 out c, eng_clear I e = Ok e1 /\ eng_process I e1 b = Ok (e2, out) /\ line e2 = [h_id I f] /\
    plays w (ps_max_block s) e2 (Some {| h_id := h_id I f; h_cv := c |}).
Proof.
  intros A I w ok Hw HI env l s e f p HR Ef Ep Ec Hn m b Hm Hb.
  destruct (reached_tracked I w ok Hw HI env l s e HR) as (Hsp & bd & Eb & Hi).
  destruct (clear_front I w ok Hw HI (ps_max_block s) bd e Hi) as (e1 & news & E & Hi1 & EF & Ecn & _ & HA).
  destruct (HA Hn) as [-> Hn1]. rewrite Ec in EF. cbn [takes fold_left] in EF. unfold settle in EF. cbn [rest f_pend f_fade front_of f_in f_out f_strat f_conv] in EF.
  rewrite Ep, Ef in EF. cbn [f_fade f_in f_out f_strat] in EF. injection EF as X1 X2 X3 X4 X5 X6.
  destruct (stuck_block I w ok Hw HI (ps_max_block s) bd e1 f m b) as (e2 & out & c & E2 & Hi2 & Hn2 & Ha & Ecv); auto.
  { apply Hsp. } { now rewrite X4. } { now rewrite X5. }
  exists e1, e2, out, c. split; auto. split; auto.
  destruct Ha as (A1 & A2 & A3). split.
  - unfold line, in_line. rewrite A1, A2, A3, Ecv. reflexivity.
  - change (Some _) with (Some (renew I f c)). rewrite <- Ecv. apply (alone_plays I w ok Hw HI (ps_max_block s) bd); auto; [apply Hsp|]. repeat split; auto.
Qed.
Example C35_refuted_example :
  let I := toy Zint in let h := toy_h kCrossfade in
  let l := [Others I [Deliver I (h 1); Deliver I (h 2); Deliver I (h 3)]; Process I [[1; 2; 3]%Z]] in
  exists e, reached I 1 (fun _ => True) [] (Prepare I small_spec :: l) small_spec e /\
    line e = [1; 2; 3] /\ option_map (h_id I) (e_fade I e) = Some 2 /\ option_map (h_id I) (e_pending I e) = Some 3 /\
    match eng_run I e [Clear I; Process I [[1; 2]%Z]; Process I [[1; 2]%Z]] with
    | Ok (e', outs) => line e' = [2] /\ outs = [[[1; 2]]; [[2; 4]]]%Z
    | _ => False
    end.
Proof. intros. apply toy_reached; [reflexivity|]. vm_compute. repeat split. Qed.
Example C35_example :
  let I := toy Zint in let h := toy_h kCrossfade in
  let l := [Others I [Deliver I (h 1); Deliver I (h 2)]; Process I [[1; 2; 3]%Z]] in
  exists e, reached I 1 (fun _ => True) [] (Prepare I small_spec :: l) small_spec e /\
    line e = [1; 2] /\ e_env I e = [] /\
    match eng_run I e [Clear I; Process I [[1; 2]%Z]; Process I [[1; 2]%Z]] with
    | Ok (e', outs) => line e' = [] /\ outs = [[[1; 2]]; [[1; 2]]]%Z
    | _ => False
    end.
Proof. intros. apply toy_reached; [reflexivity|]. vm_compute. repeat split. Qed.
Print Assumptions C35_clear.
Print Assumptions C35_exactly_then.
Print Assumptions C35_clear_during_fade_refuted.

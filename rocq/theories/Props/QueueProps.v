(** * C29, C30: the command and notification queues

    [size] is 400 in the code; the theorems hold for every size from 2 on. *)
From Verif.Model Require Import Base VisitorQueue.
From Verif.Spec Require Import Fifo.
From Verif.Proofs Require Import Lists QueueProof.

(** [kMaxQueueSize], ConvolutionEngine.h:52 *)
Definition kMaxQueueSize : nat := 400.

(** C29.  Whatever the schedule, no step is undefined; what was handed to the visitor are commands
    (never a moved-from one), in the order they were pushed, each once, and all of them are
    commands whose push returned true or is about to. *)
Theorem C29_fifo : forall T size (schedule : list (move T)), 2 <= size ->
  exists q log, q_run size (q_init size) schedule = Ok (q, log) /\
    exists handled, visited log = map Some handled /\ prefix handled (accepted log ++ in_progress log).
Proof.
  intros T N ms HN.
  destruct (run_inv N HN ms _ _ _ _ _ _ _ (inv_init N HN)) as (q & l & A & B & pub & rel & h & E & HI).
  exists q, l. split; auto. cbn [app] in HI.
  destruct (visited_pub N HN q l A B pub rel h HI) as (k & Hk & Ev).
  exists (firstn k pub). split; auto.
  destruct (pub_accepted N q l A B pub rel h HI) as (r & Er).
  exists (skipn k pub ++ r). rewrite Er. now rewrite app_assoc, firstn_skipn.
Qed.

(** The next step of the pushing thread writes, of the servicing thread moves from, slot [i]. *)
Definition writes_slot {T} (q : queue T) (i : nat) : Prop :=
  exists s1 b1 s2 b2, q_push q = PStore (s1, b1, s2, b2) /\
    ((b1 <> 0 /\ i = s1) \/ (b1 = 0 /\ b2 <> 0 /\ i = s2)).
Definition moves_slot {T} (q : queue T) (i : nat) : Prop :=
  exists todo num, q_service q = SLoop (i :: todo) num.
Theorem C29_no_data_race : forall T size (schedule : list (move T)) q log, 2 <= size ->
  q_run size (q_init size) schedule = Ok (q, log) ->
  forall i, writes_slot q i -> moves_slot q i -> False.
Proof.
  intros T N ms q l HN E i (s1 & b1 & s2 & b2 & Ew & Hi) (todo & n & Em).
  destruct (run_inv N HN ms _ _ _ _ _ _ _ (inv_init N HN)) as (q' & l' & A & B & pub & rel & h & E' & HI).
  rewrite E in E'. injection E' as <- <-.
  destruct HI as [H1 H2 H3 H4 H5 H6 H7 H8 H9 H10 H11 H12].
  rewrite Ew in H9. rewrite Em in H8. cbn in H8, H9.
  destruct H9 as (_ & _ & _ & Hroom & Epi). injection Epi as -> -> -> ->.
  destruct H8 as (_ & _ & a & _ & b & Et). destruct (rel + n - h) as [|k] eqn:Ek; [discriminate|].
  cbn in Et. injection Et as Ei _. destruct Hi as [[_ Hi]|[? _]]; [|discriminate].
  apply (mod_neq N ltac:(lia) h (length pub)); lia.
Qed.

(** When a call of Service returns, every command whose push had returned true before the call
    has been handled. *)
Theorem C29_service_handles_all : forall T size (schedule schedule' : list (move T)) q log q' log', 2 <= size ->
  q_run size (q_init size) schedule = Ok (q, log) -> q_service q = SIdle ->
  q_run size q (CallService :: schedule') = Ok (q', log') -> In EvServiced log' ->
  prefix (map Some (accepted log)) (visited (log ++ log')).
Proof.
  intros T N ms ms' q l q' l' HN E Hid E' Hin.
  destruct (run_inv N HN ms _ _ _ _ _ _ _ (inv_init N HN)) as (q1 & l1 & A & B & pub & rel & h & E1 & HI).
  rewrite E in E1. injection E1 as <- <-. cbn [app] in HI.
  cbn [q_run q_move] in E'. rewrite Hid in E'. cbn [bind] in E'.
  destruct (q_run N (with_service q SReady1) ms') as [[q2 l2]| |] eqn:E2; try discriminate.
  cbn [bind] in E'. injection E' as <- <-.
  pose proof (call_service_inv N HN q l A B pub rel h HI Hid) as HI2.
  cbn [app] in Hin. destruct Hin as [?|Hin]; [discriminate|].
  assert (EL : l ++ [EvService] ++ l2 = (l ++ [EvService]) ++ l2) by (now rewrite <- app_assoc).
  cbn [app] in EL |- *. rewrite EL.
  eapply (run_service N HN ms' _ _ _ _ _ _ _ (accepted l)); [exact HI2|discriminate| |reflexivity|exact E2|exact Hin].
  eapply accepted_pub; eauto.
Qed.

(** C30.  A push while no Service is running is rejected exactly when [size - 1] commands wait,
    and then nothing in the queue changes and the caller keeps its command. *)
Theorem C30_capacity : forall T size (schedule : list (move T)) q log c, 2 <= size ->
  q_run size (q_init size) schedule = Ok (q, log) -> q_push q = PIdle -> q_service q = SIdle ->
  exists q' b, q_run size q (CallPush c :: repeat StepPush 8) = Ok (q', [EvPush c; EvPushed b]) /\
    q_push q' = PIdle /\
    (b = false <-> length (accepted log) = length (visited log) + (size - 1)) /\
    (b = false -> q_start q' = q_start q /\ q_end q' = q_end q /\ q_storage q' = q_storage q /\
                  q_cmd q' = Some c).
Proof.
  intros T N ms q l c HN E Hp Hs.
  destruct (run_inv N HN ms _ _ _ _ _ _ _ (inv_init N HN)) as (q1 & l1 & A & B & pub & rel & h & E1 & HI).
  rewrite E in E1. injection E1 as <- <-. cbn [app] in HI.
  destruct HI as [H1 H2 H3 H4 H5 H6 H7 H8 H9 H10 H11 H12].
  rewrite Hs in H8. rewrite Hp in H9. cbn in H8, H9. destruct H8 as [-> Hv]. destruct H9 as [Ha _].
  assert (Hfree : fifo_free_space N (q_start q) (q_end q) = N - (length pub - rel) - 1).
  { unfold fifo_free_space. rewrite H2, H3, ready_ok by lia. reflexivity. }
  assert (Hacc : length (accepted l) = length pub) by (unfold accepted; now rewrite Ha).
  assert (Hvis : length (visited l) = rel) by (rewrite Hv, map_length, firstn_length; lia).
  rewrite Hacc, Hvis.
  cbn [repeat]. cbn [q_run q_move]. rewrite Hp. cbn [bind].
  unfold push_step at 1. cbn [q_push]. cbn [bind].
  unfold push_step at 1. cbn [q_push with_push q_start q_end q_storage q_cmd q_service bind].
  rewrite Hfree.
  destruct (Nat.eqb_spec (N - (length pub - rel) - 1) 0) as [Ez|Ez].
  - unfold push_step. cbn [q_push with_push q_start q_end q_storage q_cmd q_service bind app].
    eexists _, false. split; [reflexivity|]. cbn. repeat split; auto. intros _. lia.
  - unfold push_step at 1. cbn [q_push with_push q_start q_end q_storage q_cmd q_service bind].
    unfold push_step at 1. cbn [q_push with_push q_start q_end q_storage q_cmd q_service bind].
    rewrite H2, H3, prepare_write_ok by lia.
    unfold push_step at 1. cbn [q_push with_push q_start q_end q_storage q_cmd q_service bind Nat.eqb negb].
    rewrite set_ok by (rewrite H1; apply Nat.mod_upper_bound; lia). cbn [bind].
    unfold push_step at 1. cbn [q_push with_push q_start q_end q_storage q_cmd q_service bind].
    unfold push_step at 1. cbn [q_push with_push q_start q_end q_storage q_cmd q_service bind].
    unfold push_step at 1. cbn [q_push with_push q_start q_end q_storage q_cmd q_service bind app].
    eexists _, true. split; [reflexivity|]. cbn. repeat split; auto; try discriminate. intros Hf. lia.
Qed.

(** Under any schedule no more than [size - 1] commands ever wait. *)
Theorem C30_never_more : forall T size (schedule : list (move T)) q log, 2 <= size ->
  q_run size (q_init size) schedule = Ok (q, log) ->
  length (accepted log) <= length (visited log) + (size - 1).
Proof.
  intros T N ms q l HN E.
  destruct (run_inv N HN ms _ _ _ _ _ _ _ (inv_init N HN)) as (q1 & l1 & A & B & pub & rel & h & E1 & HI).
  rewrite E in E1. injection E1 as <- <-. cbn [app] in HI.
  destruct (visited_pub N HN q l A B pub rel h HI) as (k & Hk & Ev).
  destruct (accepted_pub N q l A B pub rel h HI) as (r & Er).
  rewrite Ev, map_length, firstn_length.
  destruct HI as [H1 H2 H3 H4 H5 H6 H7 H8 H9 H10 H11 H12].
  assert (length pub = length (accepted l) + length r) by (rewrite Er at 1; apply app_length). lia.
Qed.

(** A push is not rejected without reason, whatever the other thread does meanwhile: when it was
    called, [size - 1] accepted commands had not been handled by a Service that had returned. *)
Theorem C30_rejected_when_full : forall T size (schedule schedule' : list (move T)) q log c q' l1 l2, 2 <= size ->
  q_run size (q_init size) schedule = Ok (q, log) -> q_push q = PIdle ->
  q_run size q (CallPush c :: schedule') = Ok (q', l1 ++ EvPushed false :: l2) ->
  (forall b, ~ In (EvPushed b) l1) ->
  serviced log + (size - 1) <= length (accepted log).
Proof.
  intros T N ms ms' q l c q' l1 l2 HN E Hid E' Hno.
  destruct (run_inv N HN ms _ _ _ _ _ _ _ (inv_init N HN)) as (q1 & l1' & A & B & pub & rel & h & E1 & HI).
  rewrite E in E1. injection E1 as <- <-. cbn [app] in HI.
  cbn [q_run q_move] in E'. rewrite Hid in E'. cbn [bind] in E'.
  match type of E' with context [q_run N ?qq ms'] => set (qc := qq) in * end.
  destruct (q_run N qc ms') as [[q2 es]| |] eqn:E2; try discriminate.
  cbn [bind app] in E'. injection E' as -> El.
  destruct l1 as [|x l1]; cbn in El; [discriminate|]. injection El as <- ->.
  pose proof (call_push_inv N q l A B pub rel h c HI Hid) as HI2. fold qc in HI2.
  pose proof (run_push N HN ms' qc _ _ _ _ _ _ q' l1 l2 HI2) as HR.
  pose proof (i_serviced _ _ _ _ _ _ _ _ HI).
  assert (Hacc : accepted (l ++ [EvPush c]) = accepted l).
  { unfold accepted. rewrite pushes_app. destruct (pushes [] None l); reflexivity. }
  rewrite Hacc in HR. unshelve epose proof (HR _ E2 _); [discriminate| |lia].
  intros b Hb. apply (Hno b). now right.
Qed.

(** A run of 3 pushes and a service on a queue of size 3 (capacity 2), interleaved. *)
Example C29_C30_example :
  let ms := [CallPush 7; StepPush; StepPush; CallService; StepPush; StepService; StepPush; StepService; StepPush;
             StepPush; StepPush; StepService; StepPush; StepService; StepService; StepService; StepService; StepService] ++
            CallPush 8 :: repeat StepPush 8 ++ [CallService; StepService; StepService; StepService; StepService; StepService]
            ++ (CallPush 9 :: repeat StepPush 8) ++ (repeat StepService 9) ++ CallPush 10 :: repeat StepPush 8 in
  match q_run 3 (q_init 3) ms with
  | Ok (q, log) => accepted log = [7; 8; 10] /\ visited log = [Some 7; Some 8] /\ serviced log = 2 /\
                   log = [EvPush 7; EvService; EvPushed true; EvServiced; EvPush 8; EvPushed true; EvService;
                          EvPush 9; EvPushed false; EvVisit (Some 7); EvVisit (Some 8); EvServiced; EvPush 10; EvPushed true]
  | _ => False
  end.
Proof. vm_compute. repeat split; reflexivity. Qed.

Print Assumptions C29_fifo.
Print Assumptions C29_no_data_race.
Print Assumptions C29_service_handles_all.
Print Assumptions C30_capacity.
Print Assumptions C30_never_more.
Print Assumptions C30_rejected_when_full.

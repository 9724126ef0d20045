(** * C78: the memory the convolvers take is bounded *)
From Verif.Model Require Import Base Arith ArithMod Juce Float32 SmoothedValue Convolver ConvolutionEngine Loader.
From Verif.Spec Require Import Transform Signal Engine Loading.
From Verif.Proofs Require Import Lists EngineProof EngineInv LoaderProof LoaderFate LoaderMore LoaderLive.
From Verif.Props Require Import EngineProps.

(** ** the engine *)
Section Caps.
  Context {A : arith} (I : conv_if A).
  Notation engine := (engine I).
  (** the occupied places of the two queues *)
  Definition caps (e : engine) : Prop :=
    length (e_commands I e) + e_cmd_busy I e <= queue_capacity /\ length (e_notes I e) + e_note_busy I e <= queue_capacity.
  Lemma act_caps a e : caps e -> caps (act I e a).
  Proof.
    intros [H1 H2]. destruct a as [h| |]; cbn [act].
    - destruct (Nat.ltb_spec (length (e_commands I e) + e_cmd_busy I e) queue_capacity) as [L|L]; split; ecbn; auto.
      rewrite app_length. cbn [length]. lia.
    - destruct (e_notes I e) as [|n t] eqn:En; split; ecbn; auto; rewrite ?En; cbn [length] in *; lia.
    - split; ecbn; lia.
  Qed.
  Lemma acts_caps l : forall e, caps e -> caps (acts I l e).
  Proof. unfold acts. induction l as [|a l IH]; intros e H; cbn [fold_left]; auto. apply IH. now apply act_caps. Qed.
  Lemma interrupt_caps e : caps e -> caps (interrupt I e).
  Proof. intros H. unfold interrupt. destruct (e_env I e) as [|l t]; auto. apply (acts_caps l (set_env I t e)). exact H. Qed.
  Lemma push_note_caps n e : caps e -> caps (push_note I n e).
  Proof.
    intros H. unfold push_note. apply interrupt_caps in H. set (e1 := interrupt I e) in *. clearbody e1. destruct H as [H1 H2].
    destruct (Nat.ltb_spec (length (e_notes I e1) + e_note_busy I e1) queue_capacity) as [L|L]; split; ecbn; auto.
    rewrite app_length. cbn [length]. lia.
  Qed.
  Lemma begin_fade_caps e e' : caps e -> eng_begin_fade I e = Ok e' -> caps e'.
  Proof.
    intros H. unfold eng_begin_fade. destruct (e_fade I e); [|discriminate]. destruct (e_bounds I e); [|discriminate].
    destruct (fade_of _ _ _) as [[s n]| |]; cbn [bind]; intros E; try discriminate. injection E as <-. exact H.
  Qed.
  Lemma ready_caps e h e' : caps e -> eng_ready I e h = Ok e' -> caps e'.
  Proof.
    intros H. unfold eng_ready. destruct (e_conv I e) as [c|] eqn:Ec; [|intros E; injection E as <-; exact H].
    set (e1 := match e_pending I e with Some p => _ | None => e end).
    assert (H1 : caps e1) by (unfold e1; destruct (e_pending I e); [apply push_note_caps|]; exact H).
    clearbody e1. destruct (e_fade I e1); intros E; [injection E as <-; exact H1|]. eapply begin_fade_caps in E; eauto.
  Qed.
  Lemma service_n_caps : forall n e e', caps e -> eng_service_n I n e = Ok e' -> caps e'.
  Proof.
    induction n as [|n IH]; intros e e' H E; cbn [eng_service_n] in E; [injection E as <-; exact H|].
    apply interrupt_caps in H. set (e1 := interrupt I e) in *. clearbody e1. cbv zeta in E.
    destruct (e_commands I e1) as [|h t] eqn:Ec; [discriminate|].
    destruct (eng_ready I _ h) as [e2| |] eqn:E2; cbn [bind] in E; try discriminate.
    apply ready_caps in E2; [eapply IH; eauto|]. destruct H as [H1 H2]. rewrite Ec in H1. split; ecbn; cbn [length] in *; auto. lia.
  Qed.
  Lemma service_caps e e' : caps e -> eng_service I e = Ok e' -> caps e'.
  Proof.
    intros H. unfold eng_service. destruct (eng_service_n _ _ _) as [e1| |] eqn:E1; cbn [bind]; intros E; try discriminate.
    apply service_n_caps in E1; auto. apply interrupt_caps in E1. set (e2 := interrupt I e1) in *. clearbody e2. injection E as <-.
    destruct E1 as [H1 H2]. split; ecbn; auto. lia.
  Qed.
  Ltac step H := match type of H with
    | bind ?a _ = Ok _ => let E := fresh "E" in let v := fresh "r" in destruct a as [v| |] eqn:E; cbn [bind] in H; try discriminate
    end.
  Ltac step2 H c o := match type of H with
    | bind ?a _ = Ok _ => let E := fresh "E" in destruct a as [[c o]| |] eqn:E; cbn [bind] in H; try discriminate
    end.
  Lemma process_caps e out e' o' : caps e -> eng_process I e out = Ok (e', o') -> caps e'.
  Proof.
    intros HC. unfold eng_process. intros H. step H. apply service_caps in E; auto. destruct (e_fade I r) eqn:Ef.
    - step2 H e2 o2.
      assert (HB : caps e2).
      { destruct (e_strategy I r).
        - unfold eng_in_out in E0. destruct (sm_smoothing _); step2 E0 c o1; destruct (blk_multiply_by o1 _) as [o3 so]; injection E0 as <- <-; exact E.
        - unfold eng_crossfade in E0. do 3 step E0. step2 E0 c o1. step2 E0 f fb.
          destruct (blk_multiply_by o1 _) as [o3 so]. destruct (blk_multiply_by fb _) as [fb2 si]. step E0. step E0.
          injection E0 as <- <-. exact E. }
      destruct (sm_smoothing _); cbn [bind] in H; [injection H as <- <-; exact HB|].
      step H. injection H as <- <-. revert E1. unfold eng_finish.
      assert (H3 : caps (push_note I (e_conv I e2) (set_slots I None (e_fade I e2) (e_pending I e2) e2))) by (apply push_note_caps; exact HB).
      set (e3 := push_note I _ _) in *. clearbody e3. cbv zeta. ecbn. destruct (e_pending I e3); intros H.
      + apply begin_fade_caps in H; exact H || exact H3.
      + injection H as <-. exact H3.
    - step2 H c o2. injection H as <- <-. exact E.
  Qed.
  Lemma reset_caps e e' : caps e -> eng_reset I e = Ok e' -> caps e'.
  Proof.
    intros HC H. unfold eng_reset in H. step H. apply service_caps in E; [|exact HC]. injection H as <-. cbv zeta.
    set (e1 := set_buffer I _ r). assert (H1 : caps e1) by exact E. clearbody e1.
    match goal with |- caps (match e_conv I ?x with _ => _ end) => assert (H2 : caps x); [|revert H2; generalize x; intros y H2; destruct (e_conv I y); exact H2] end.
    destruct (e_pending I r) as [p|]; [|destruct (e_fade I r) as [f|]]; exact H1.
  Qed.
  Lemma step_caps e o e' outs : caps e -> eng_step I e o = Ok (e', outs) -> caps e'.
  Proof.
    intros HC. destruct o as [s|b| | |l]; cbn [eng_step]; intros H.
    - step H. injection H as <- _. unfold eng_prepare in E. step E. eapply reset_caps in E; [exact E|exact HC].
    - step2 H e1 o1. injection H as <- _. eapply process_caps; eauto.
    - step H. injection H as <- _. eapply reset_caps; eauto.
    - step H. injection H as <- _. unfold eng_clear in E. step E. injection E as <-. eapply reset_caps in E0; [exact E0|exact HC].
    - injection H as <- _. now apply acts_caps.
  Qed.
  Lemma run_caps l : forall e e' outs, caps e -> eng_run I e l = Ok (e', outs) -> caps e'.
  Proof.
    induction l as [|o l IH]; intros e e' outs HC H; cbn [eng_run] in H; [injection H as <- _; exact HC|].
    step2 H e1 x. step2 H e2 xs. injection H as <- _. eapply IH; [|eassumption]. eapply step_caps; eauto.
  Qed.
End Caps.

(** Whatever is called and however many responses are loaded, also when the audio thread or the background thread never runs: an
    engine owns at most 3 + 2 * 399 convolvers. *)
Theorem C78_engine_owns_few : forall (A : arith) (I : conv_if A) env l e outs,
  eng_run I (eng_new I env) l = Ok (e, outs) -> length (owned e) <= 3 + 2 * 399.
Proof.
  intros A I env l e outs E. apply run_caps in E; [|unfold caps; cbn; lia]. destruct E as [H1 H2]. unfold owned. rewrite !app_length, map_length.
  assert (S : forall o : option (held I), length (slot_ids o) <= 1) by (intros [h|]; cbn; lia).
  pose proof (S (e_conv I e)). pose proof (S (e_fade I e)). pose proof (S (e_pending I e)).
  assert (F : length (flat_map slot_ids (e_notes I e)) <= length (e_notes I e)).
  { induction (e_notes I e) as [|n t IH]; cbn [flat_map length]; [lia|]. rewrite app_length. cbn [length] in H2. specialize (S n). assert (length (flat_map slot_ids t) <= length t) by (apply IH; lia). lia. }
  unfold queue_capacity in *. lia.
Qed.
Print Assumptions C78_engine_owns_few.

(** ** the pool *)
Section Pool.
  Context {request conv : Type} (build : request -> process_spec -> res conv) (workers : nat).
  Notation state := (state request conv).
  Implicit Types s : state.
  Notation load_move := (load_move build workers).
  Notation load_run := (load_run build workers).
  Ltac moves m E := load_moves build workers m E.

  (** a LoadIR call that has emptied the pool and has not yet added its job *)
  Definition adding (c : caller request) : bool :=
    match c with CSpec _ _ _ | CFlag _ _ _ | CEmit _ _ _ | CAdd _ _ _ => true | _ => false end.
  Definition adds s (e : nat) : bool :=
    match n_lock (s_engine s e) with Some (ByCaller t) => adding (s_caller s t) | _ => false end.
  Definition about k s : nat := length (filter (adds s) (seq 0 k)).
  Lemma about_le k s : about k s <= k.
  Proof. unfold about. rewrite <- (seq_length k 0) at 2. generalize (seq 0 k). induction l as [|a l IH]; cbn; [lia|]. destruct (adds s a); cbn; lia. Qed.
  Lemma filter_le {T} (f g : T -> bool) l : (forall x, In x l -> f x = true -> g x = true) -> length (filter f l) <= length (filter g l).
  Proof.
    induction l as [|a l IH]; intros H; cbn; [lia|]. pose proof (IH (fun x Hx => H x (or_intror Hx))). pose proof (H a (or_introl eq_refl)) as Ha.
    destruct (f a); [rewrite Ha by auto; cbn; lia|]. destruct (g a); cbn; lia.
  Qed.
  Lemma filter_lt {T} (f g : T -> bool) l y : (forall x, In x l -> f x = true -> g x = true) -> In y l -> f y = false -> g y = true ->
    length (filter f l) < length (filter g l).
  Proof.
    induction l as [|a l IH]; intros H Hy Ef Eg; [easy|]. cbn. destruct Hy as [->|Hy].
    - rewrite Ef, Eg. cbn. pose proof (filter_le f g l (fun x Hx => H x (or_intror Hx))). lia.
    - pose proof (IH (fun x Hx => H x (or_intror Hx)) Hy Ef Eg). pose proof (H a (or_introl eq_refl)) as Ha.
      destruct (f a); [rewrite Ha by auto; cbn; lia|]. destruct (g a); cbn; lia.
  Qed.

  Definition engine_of (c : caller request) : option nat :=
    match c with
    | CIdle => None
    | CLock e _ | CRemove e _ _ | CSpec e _ _ | CFlag e _ _ | CEmit e _ _ | CAdd e _ _ | CUnlock e _ => Some e
    end.
  Definition low k s : Prop := forall t e, engine_of (s_caller s t) = Some e -> e < k.
  Definition calls_below k (m : move request) : Prop := match m with CallLoadIR _ e _ => e < k | _ => True end.
  Lemma low_move k s m s' x : low k s -> calls_below k m -> load_move s m = Ok (s', x) -> low k s'.
  Proof.
    intros H Hm E. moves m E; auto; intros t0 e0; cbn; unfold upd; try (destruct (Nat.eqb_spec t0 t) as [->|]); try apply H.
    all: cbn; intros E0; try discriminate; injection E0 as <-; auto.
    all: apply (H t); rewrite Et; reflexivity.
  Qed.
  Definition few_waiting k s : Prop := waiting (s_jobs s) + about k s <= k.
  Lemma waiting_move k s m s' x tr : pool workers tr s -> locks s -> low k s -> few_waiting k s -> load_move s m = Ok (s', x) -> few_waiting k s'.
  Proof.
    intros HP HL HK H E. unfold few_waiting in *.
    assert (Same : forall s', waiting (s_jobs s') <= waiting (s_jobs s) -> (forall e, e < k -> adds s' e = true -> adds s e = true) ->
      waiting (s_jobs s') + about k s' <= k).
    { intros s1 W X. unfold about in *. pose proof (filter_le (adds s1) (adds s) (seq 0 k) (fun e He => X e ltac:(apply in_seq in He; lia))). lia. }
    moves m E; auto.
    all: try match goal with Et : s_caller ?s ?t = CAdd ?e ?id ?r |- _ =>
      assert (He : e < k) by (apply (HK t); now rewrite Et);
      assert (Hlk : n_lock (s_engine s e) = Some (ByCaller t)) by (apply (HL (ByCaller t) e); cbn; now rewrite Et);
      assert (W : about k (set_caller t (CUnlock e id) (set_jobs (s_jobs s ++ [{| j_load := {| l_id := id; l_engine := e; l_request := r; l_spec := p |}; j_active := false; j_stop := false |}]) s)) < about k s);
      [unfold about; apply (filter_lt _ _ _ e);
        [intros e' _; unfold adds; cbn; destruct (n_lock (s_engine s e')) as [[t'|?]|]; auto; unfold upd; destruct (Nat.eqb_spec t' t) as [->|]; cbn; auto; congruence
        |apply in_seq; lia
        |unfold adds; cbn; rewrite Hlk; unfold upd; now rewrite Nat.eqb_refl
        |unfold adds; rewrite Hlk, Et; reflexivity]
      |cbn [s_jobs set_caller set_jobs] in *; rewrite waiting_app; unfold waiting at 2; cbn [filter j_active negb length]; lia] end.
    all: try (apply Same; [cbn; auto|intros e' _; unfold adds; cbn; unfold upd;
      repeat match goal with |- context [?a =? ?b] => destruct (Nat.eqb_spec a b); subst end; cbn;
      repeat match goal with |- context [match n_lock ?n with _ => _ end] => destruct (n_lock n) as [[?|?]|]; cbn end;
      repeat match goal with |- context [?a =? ?b] => destruct (Nat.eqb_spec a b); subst end; rewrite ?Et; cbn; auto; congruence]).
    - cbn [s_jobs set_caller set_jobs]. rewrite waiting_remove. apply about_le.
    - destruct (pick_spec _ _ _ (fun j H1 H2 => proj1 (p_waiting _ _ _ HP j H1 H2)) Ep) as (l1 & l2 & Ej & ->).
      change (waiting (l1 ++ {| j_load := ld; j_active := true; j_stop := false |} :: l2) <= waiting (s_jobs s)) || idtac.
      rewrite Ej. unfold waiting. rewrite !filter_app, !app_length. cbn [filter j_active negb length]. lia.
    - destruct (pick_spec _ _ _ (fun j H1 H2 => proj1 (p_waiting _ _ _ HP j H1 H2)) Ep) as (-> & _). apply Nat.le_refl.
    - eapply waiting_finish; [exact HP|]. now rewrite Ew.
  Qed.

  Lemma active_few s tr : pool workers tr s -> length (filter j_active (s_jobs s)) <= workers.
  Proof.
    intros HP. set (run := flat_map (fun w => match wload (s_worker s w) with Some ld => [l_id ld] | None => [] end) (seq 0 workers)).
    assert (HR : length run <= workers).
    { unfold run. rewrite <- (seq_length workers 0) at 2. generalize (seq 0 workers). induction l as [|w l IH]; cbn [flat_map length]; [lia|].
      rewrite app_length. destruct (wload (s_worker s w)); cbn [length]; lia. }
    rewrite <- (map_length (fun j => l_id (j_load j)) (filter j_active (s_jobs s))). eapply Nat.le_trans; [|exact HR]. apply NoDup_incl_length.
    - pose proof (p_nodup _ _ _ HP) as N. revert N. generalize (s_jobs s). induction l as [|j l IH]; cbn [map filter]; intros N; [constructor|].
      inversion N as [|? ? N1 N2]; subst. destruct (j_active j); cbn [map]; auto. constructor; auto. intros Hi. apply N1.
      apply in_map_iff in Hi as (j' & <- & Hj). apply in_map_iff. exists j'. apply filter_In in Hj. split; [reflexivity|apply Hj].
    - intros i Hi. apply in_map_iff in Hi as (j & <- & Hj). apply filter_In in Hj as [Hj Ha].
      destruct (p_active _ _ _ HP j Hj Ha) as (w & Hw & E). unfold run. apply in_flat_map. exists w. split; [apply in_seq; lia|]. rewrite E. now left.
  Qed.
  Lemma pool_split (l : list (job request)) : length l = waiting l + length (filter j_active l).
  Proof. unfold waiting. induction l as [|j l IH]; cbn; [reflexivity|]. destruct (j_active j); cbn; lia. Qed.

  Lemma waiting_run k ms : (forall m, In m ms -> calls_below k m) -> forall tr s s' x, all build workers tr s -> low k s -> few_waiting k s ->
    load_run s ms = Ok (s', x) -> few_waiting k s' /\ all build workers (tr ++ x) s'.
  Proof.
    induction ms as [|m ms IH]; intros Hm tr s s' x HA HK HF E; cbn [Loader.load_run] in E.
    - injection E as <- <-. now rewrite app_nil_r.
    - destruct (load_move s m) as [[s1 x1]| |] eqn:E1; cbn [bind] in E; try discriminate.
      destruct (load_run s1 ms) as [[s2 x2]| |] eqn:E2; cbn [bind] in E; try discriminate. injection E as <- <-. rewrite app_assoc.
      pose proof HA as ((HL & HP & _) & _).
      apply (IH (fun m' Hm' => Hm m' (or_intror Hm')) (tr ++ x1) s1 s2 x2); auto.
      + eapply all_move; eauto.
      + eapply low_move; [exact HK|apply Hm; now left|exact E1].
      + eapply waiting_move; eauto.
  Qed.
End Pool.

(** In every schedule in which LoadIR is called on [k] engines, by any number of threads and however often: at most [k] jobs wait for
    a thread of the pool, and the pool never holds more than [k] jobs besides those being run, one per thread. *)
Theorem C78_pool_holds_few : forall (request conv : Type) (build : request -> process_spec -> res conv) workers k ms st tr,
  load_run build workers load_new ms = Ok (st, tr) -> (forall t e r, In (CallLoadIR t e r) ms -> e < k) ->
  length (filter (fun j => negb (j_active j)) (s_jobs st)) <= k /\ length (s_jobs st) <= workers + k.
Proof.
  intros request conv build workers k ms st tr E Hk.
  destruct (waiting_run build workers k ms) with (tr := @nil (event request conv)) (s := @load_new request conv) (s' := st) (x := tr) as (HF & HA); auto.
  - intros m Hm. destruct m; cbn; auto. eapply Hk; eauto.
  - apply all_new.
  - intros t e; cbn. discriminate.
  - unfold few_waiting. cbn [s_jobs load_new]. apply about_le.
  - unfold few_waiting in HF. destruct HA as ((_ & HP & _) & _). pose proof (active_few workers st _ HP) as HW.
    change (length (filter _ _)) with (waiting (s_jobs st)) at 1. rewrite pool_split. lia.
Qed.
Print Assumptions C78_pool_holds_few.

(** The bounds are reached: with one thread and two engines a job runs and two wait; a third call for either engine removes both.
    With a rejected delivery: an engine whose audio thread never runs keeps 399 convolvers, however many are delivered. *)
Example C78_pool_example :
  let ms := [CallPrepare 0 {| ps_rate_num := 48000; ps_rate_den := 1; ps_max_block := 64; ps_channels := 2 |};
             CallPrepare 1 {| ps_rate_num := 48000; ps_rate_den := 1; ps_max_block := 64; ps_channels := 2 |}] ++
            CallLoadIR 0 0 7 :: repeat (StepCaller 0) 7 ++ [StepWorker 0] ++
            [CallLoadIR 1 0 8; CallLoadIR 2 1 9] ++ repeat (StepCaller 1) 2 ++ repeat (StepCaller 2) 2 ++ repeat (StepCaller 1) 5 ++ repeat (StepCaller 2) 5 in
  exists st tr, load_run (fun (r : nat) _ => Ok r) 1 load_new ms = Ok (st, tr) /\ (forall t e r, In (CallLoadIR t e r) ms -> e < 2) /\
    length (filter (fun j => negb (j_active j)) (s_jobs st)) = 2 /\ length (s_jobs st) = 3 /\
    exists st' tr', load_run (fun (r : nat) _ => Ok r) 1 st (CallLoadIR 0 1 10 :: repeat (StepCaller 0) 7) = Ok (st', tr') /\ length (s_jobs st') = 2.
Proof.
  intros ms. destruct (load_run (fun (r : nat) _ => Ok r) 1 load_new ms) as [[st tr]| |] eqn:E; vm_compute in E; try discriminate.
  exists st, tr. split; [reflexivity|]. split.
  - intros t e r H. unfold ms in H. cbn in H. repeat (destruct H as [H|H]; [try discriminate H; injection H as _ <- _; lia|]). destruct H.
  - injection E as <- <-. split; [reflexivity|]. split; [reflexivity|]. eexists _, _. split; [vm_compute; reflexivity|reflexivity].
Qed.
Example C78_engine_example :
  let I := toy ArithMod.Zarith in
  let h i := toy_held ArithMod.Zarith i (Z.of_nat i) 50%Z kCrossfade in
  let l := [Prepare I small_spec; Others I (map (fun i => Deliver I (h i)) (seq 0 500))] in
  match eng_run I (eng_new I []) l with
  | Ok (e, _) => length (owned e) = 399 /\ length (destroyed (e_log I e)) = 101
  | _ => False
  end.
Proof. vm_compute. split; reflexivity. Qed.

(** * Properties of loading (C40-C45, C48-C51)

    An execution is a schedule [ms] with [load_run build workers load_new ms = Ok (s, tr)]: any number
    of engines, any number of threads that call LoadIR, a pool of [workers] threads, any interleaving;
    [tr] is what happened, [s] the state afterwards.  [build] is the constructor of the convolver; the
    theorems hold for all of them, in particular for [convolver_build R]. *)
From Coq Require Import Sorted.
From Verif.Model Require Import Base Arith Juce UniformPartitionedConvolver Convolver ConvolutionEngine Loader.
From Verif.Spec Require Import Loading.
From Verif.Proofs Require Import LoaderProof LoaderFate LoaderMore LoaderTrace LoaderLive.

(** A toy for the examples: requests are numbers, a convolver is a request and a block size. *)
Definition toy_build (r : nat) (p : process_spec) : res (nat * nat) := Ok (r, ps_max_block p).
Definition toy_spec (n : nat) : process_spec := {| ps_rate_num := 48000; ps_rate_den := 1; ps_max_block := n; ps_channels := 2 |}.
Definition toy_prepare (e n : nat) : list (move nat) := [CallPrepare e (toy_spec n); Preparing e].
Definition toy_load (t e r : nat) : list (move nat) := CallLoadIR t e r :: repeat (StepCaller t) 7.
Definition toy_work (w : nat) : list (move nat) := repeat (StepWorker w) 9.
Definition toy_run ms := load_run toy_build 2 load_new ms.
Definition toy_trace ms := match toy_run ms with Ok (_, tr) => tr | _ => [] end.
Definition toy_state ms := match toy_run ms with Ok (s, _) => s | _ => load_new end.
Lemma toy_ok ms : match toy_run ms with Ok _ => true | _ => false end = true -> toy_run ms = Ok (toy_state ms, toy_trace ms).
Proof. unfold toy_state, toy_trace. destruct (toy_run ms) as [[]| |]; try discriminate. reflexivity. Qed.

Section Props.
  Context {request conv : Type}.
  Variable build : request -> process_spec -> res conv.
  Variable workers : nat.
  Notation trace := (list (event request conv)).
  Notation state := (state request conv).
  Notation load_run := (@load_run request conv build workers).
  Notation load_new := (@load_new request conv).
  Implicit Types (ms : list (move request)) (tr : trace) (s : state).

  (** ** C40 *)
  (** Only the response of the latest LoadIR call is delivered, and not twice. *)
  Theorem C40_only_the_latest_is_delivered : forall ms s tr, load_run load_new ms = Ok (s, tr) ->
    forall tr1 id e c tr2, tr = tr1 ++ Pushed id e c :: tr2 ->
    last_began e tr1 = Some id /\ forall e' c', ~ In (Pushed id e' c') tr1.
  Proof.
    intros ms s tr E tr1 id e c tr2 Etr. destruct (all_reached _ _ _ _ _ E) as ((_ & _ & HN) & _).
    destruct (n_order _ _ HN tr1 id e c tr2 Etr) as [H1 H2]. split; auto. intros e' c' Hi. apply H2. exists e', c'. auto.
  Qed.
  (** Deliveries are in the order of the LoadIR calls. *)
  Theorem C40_in_order : forall ms s tr e, load_run load_new ms = Ok (s, tr) ->
    StronglySorted lt (began e tr) /\ StronglySorted lt (pushed e tr) /\ incl (pushed e tr) (began e tr).
  Proof.
    intros ms s tr e E. split; [eapply began_sorted; eauto|]. apply (pushed_in_order build workers ms s tr e E).
  Qed.
  (** Once a LoadIR call has returned, nothing older is delivered. *)
  Theorem C40_nothing_older : forall ms s tr1 tr2, load_run load_new ms = Ok (s, tr1 ++ tr2) ->
    forall t id e id' c, In (Returned t id e) tr1 -> In (Pushed id' e c) tr2 -> id <= id'.
  Proof.
    intros ms s tr1 tr2 E t id e id' c HR HP. apply in_split in HP as (a & b & ->).
    destruct (C40_only_the_latest_is_delivered ms s _ E (tr1 ++ a) id' e c b) as [HL _]; [now rewrite <- app_assoc|].
    destruct (run_prefix build workers ms load_new s (tr1 ++ a) (Pushed id' e c :: b)) as (ms1 & ms2 & s1 & _ & E1 & _); [now rewrite <- app_assoc|].
    destruct (run_prefix build workers ms1 load_new s1 tr1 a E1) as (ms3 & ms4 & s2 & _ & E2 & _).
    pose proof (began_sorted build workers _ _ _ e E1) as HS. apply (sorted_last _ _ _ HS HL).
    rewrite began_app. apply in_app_iff. left. apply (returned_began build workers _ _ _ t id e E2 HR).
  Qed.

  (** ** C41 *)
  (** When nothing is going on any more, the response of a LoadIR call on a prepared engine after which
      nobody else called removeAllJobs has been delivered, built from its arguments, and IsLoading is
      false. *)
  Theorem C41_delivered : forall ms s tr, load_run load_new ms = Ok (s, tr) -> quiescent s ->
    forall tr1 t id e r tr2, tr = tr1 ++ Began t id e r :: tr2 -> last_prepared e tr1 <> None ->
    (forall id' e', In (Cancelled id' e') tr2 -> id' = id) ->
    (exists c p, In (Pushed id e c) tr2 /\ build r p = Ok c) /\ n_loading (s_engine s e) = false.
  Proof.
    intros ms s tr E (Q1 & Q2 & Q3) tr1 t id e r tr2 Etr Hprep Hc. pose proof (all_reached _ _ _ _ _ E) as ((HL & HP & HN) & HA & HF & _ & HO).
    destruct (call_order_run _ _ _ _ _ E) as (K1 & K2 & K3 & K4 & K5).
    assert (HB : In (Began t id e r) tr) by (rewrite Etr; apply in_elt).
    assert (HQ : In (Queued id e) tr).
    { destruct (K2 _ _ _ _ HB) as [HR|HR]; [|rewrite Q1 in HR; discriminate]. apply (o_done _ _ _ HO t e id HR). exists t, r, tr1, tr2. auto. }
    pose proof (began_sorted _ _ _ _ _ e E) as HS.
    assert (Hlt : forall id', In id' (began e tr1) -> id' < id).
    { intros id' Hi. rewrite Etr in HS. change (Began t id e r :: tr2) with ([Began t id e r] ++ tr2) in HS. rewrite !began_app in HS. cbn in HS. rewrite Nat.eqb_refl in HS.
      clear -HS Hi. induction (began e tr1) as [|a l IH]; [easy|]. cbn in HS. apply StronglySorted_inv in HS as [H1 H2].
      destruct Hi as [->|Hi]; auto. rewrite Forall_forall in H2. apply H2. apply in_app_iff. right. cbn. now left. }
    (* the job was added after the call began *)
    assert (HQ2 : exists a b, tr2 = a ++ Queued id e :: b).
    { rewrite Etr in HQ. apply in_app_iff in HQ as [HQ|HQ].
      - exfalso. subst tr. destruct (run_prefix _ _ _ _ _ _ _ E) as (ms1 & ms2 & s1 & _ & E1 & _).
        destruct (all_reached _ _ _ _ _ E1) as (_ & _ & HF1 & _).
        pose proof (f_queued _ _ HF1 _ _ HQ) as Hid.
        destruct (run_prefix build workers ms load_new s (tr1 ++ [Began t id e r]) tr2) as (ms3 & ms4 & s3 & _ & E3 & _); [now rewrite <- app_assoc|].
        destruct (run_prefix build workers ms3 load_new s3 tr1 [Began t id e r] E3) as (ms5 & ms6 & s5 & _ & E5 & E6).
        destruct (all_reached _ _ _ _ _ E5) as (_ & _ & HF5 & _). pose proof (f_queued _ _ HF5 _ _ HQ) as Hid5.
        apply (began_next build workers ms6 s5 s3 [Began t id e r] t id e r E6) in Hid5; [easy|]. now left.
      - destruct HQ as [HQ|HQ]; [discriminate|]. now apply in_split. }
    destruct HQ2 as (a & b & ->).
    assert (Hway : on_its_way id e tr s).
    { apply (HA (tr1 ++ Began t id e r :: a) id e b).
      - rewrite Etr. now rewrite <- app_assoc.
      - intros id' e' Hi. assert (id' = id) as -> by (apply (Hc id' e'); apply in_app_iff; right; now right).
        apply (K3 (tr1 ++ Began t id e r :: a) id e b e'); auto. rewrite Etr. now rewrite <- app_assoc. }
    assert (Hpush : exists c, In (Pushed id e c) tr).
    { destruct Hway as [?|[(j & Hj & _)|(w & ld & Hw & _)]]; auto; [rewrite Q3 in Hj; easy|rewrite Q2 in Hw; easy]. }
    assert (Hlast : last_began e tr = Some id).
    { assert (Hn : began e (a ++ Queued id e :: b) = []).
      { destruct (began e (a ++ Queued id e :: b)) as [|k l] eqn:Ek; auto. exfalso. assert (Hi : In k (k :: l)) by now left. rewrite <- Ek in Hi.
        apply began_in in Hi as (t' & r' & Hi). apply in_split in Hi as (b1 & b2 & Eb).
        assert (k = id).
        { destruct (K1 (tr1 ++ Began t id e r :: b1) t' k e r' b2) as [Hcn|Hcn]; [rewrite Etr, Eb; now rewrite <- app_assoc| |rewrite Q1 in Hcn; discriminate].
          apply (Hc k e). rewrite Eb. apply in_app_iff. right. now right. }
        subst k. clear -HS Etr Eb. subst tr. rewrite Eb in HS. change (Began t id e r :: b1 ++ Began t' id e r' :: b2) with ([Began t id e r] ++ b1 ++ [Began t' id e r'] ++ b2) in HS.
        rewrite !began_app in HS. cbn in HS. rewrite Nat.eqb_refl in HS. induction (began e tr1) as [|x l IH]; cbn in HS; apply StronglySorted_inv in HS as [H1 H2]; auto.
        rewrite Forall_forall in H2. specialize (H2 id). assert (id < id); [|lia]. apply H2. apply in_app_iff. right. now left. }
      rewrite Etr. unfold last_began. change (Began t id e r :: a ++ Queued id e :: b) with ([Began t id e r] ++ (a ++ Queued id e :: b)).
      rewrite (began_app e tr1), (began_app e [_]), Hn. cbn. rewrite Nat.eqb_refl. cbn. rewrite rev_app_distr. reflexivity. }
    split.
    - destruct Hpush as [c Hpush]. destruct (o_pushed _ _ _ HO _ _ _ Hpush) as (ld & L1 & L2 & (t' & x1 & x2 & x3 & Ex & _) & Hb).
      exists c, (l_spec ld). split.
      + rewrite Etr in Hpush. apply in_app_iff in Hpush as [Hp|[Hp|Hp]]; [|discriminate|exact Hp]. exfalso.
        assert (Hpe : In id (pushed e tr1)) by (apply in_pushed; eauto). subst tr.
        destruct (run_prefix _ _ _ _ _ _ _ E) as (ms1 & ms2 & s1 & _ & E1 & _).
        destruct (pushed_in_order _ _ _ _ _ e E1) as [_ Hsub]. specialize (Hlt _ (Hsub _ Hpe)). lia.
      + assert (l_request ld = r) as <-; auto. assert (HB' : In (Began t' id e (l_request ld)) tr) by (rewrite Ex, L1, L2; apply in_elt).
        now destruct (f_unique _ _ HF _ _ _ _ _ _ _ HB' HB).
    - destruct (n_loading (s_engine s e)) eqn:El; auto. destruct (f_true _ _ HF e El) as [[t' Ht]|(k & Hk & _ & [Hnp|(w & ld & Hw & _)])].
      + rewrite Q1 in Ht. discriminate.
      + rewrite Hlast in Hk. injection Hk as <-. destruct Hpush as [c Hpush]. destruct Hnp. exists e, c. auto.
      + rewrite Q2 in Hw. discriminate.
  Qed.

  Lemma last_began_of e t id r tr1 tr2 : began e tr2 = [] -> last_began e (tr1 ++ Began t id e r :: tr2) = Some id.
  Proof.
    intros Hn. unfold last_began. change (Began t id e r :: tr2) with ([Began t id e r] ++ tr2).
    rewrite (began_app e tr1), (began_app e [_]), Hn. cbn. rewrite Nat.eqb_refl. cbn. rewrite rev_app_distr. reflexivity.
  Qed.
  (** An engine with a pool of its own: the response of the last LoadIR call is delivered. *)
  Theorem C41_own_pool : forall ms s tr, load_run load_new ms = Ok (s, tr) -> quiescent s ->
    forall e, (forall t id e' r, In (Began t id e' r) tr -> e' = e) ->
    forall tr1 t id r tr2, tr = tr1 ++ Began t id e r :: tr2 -> began e tr2 = [] -> last_prepared e tr1 <> None ->
    (exists c p, In (Pushed id e c) tr2 /\ build r p = Ok c) /\ n_loading (s_engine s e) = false.
  Proof.
    intros ms s tr E Q e Hown tr1 t id r tr2 Etr Hn Hprep. apply (C41_delivered ms s tr E Q tr1 t id e r tr2 Etr Hprep).
    intros id' e' Hi. destruct (call_order_run _ _ _ _ _ E) as (_ & _ & _ & _ & K5). apply in_split in Hi as (a & b & Eab).
    assert (HL : last_began e' (tr1 ++ Began t id e r :: a) = Some id') by (apply (K5 _ _ _ b); rewrite Etr, Eab; now rewrite <- app_assoc).
    pose proof HL as HL'. apply last_began_in in HL' as (t' & r' & Hi).
    assert (e' = e) as ->. { apply (Hown t' id' e' r'). rewrite Etr, Eab. apply in_app_iff in Hi as [Hi|[Hi|Hi]]; apply in_app_iff; auto; right; [left; auto|right; apply in_app_iff; auto]. }
    rewrite last_began_of in HL; [congruence|]. rewrite Eab, began_app in Hn. now apply app_eq_nil in Hn.
  Qed.
  (** Everything comes to rest: after any careful history, if nobody makes new calls, a number of rounds in
      which every thread gets a turn leads to a state in which nothing is going on and no notification is
      waiting.  LoadIR is called by the threads below [callers]; [valid] are the arguments of prepare. *)
  Theorem C41_comes_to_rest : 0 < workers -> forall valid ms s tr callers,
    careful build workers valid load_new ms -> load_run load_new ms = Ok (s, tr) ->
    (forall t, callers <= t -> s_caller s t = CIdle) ->
    exists n, forall bs, n <= length bs -> (forall b, In b bs -> fair workers callers b) ->
    exists s' tr', load_run s (concat bs) = Ok (s', tr') /\ quiescent s' /\ s_messages s' = [].
  Proof.
    intros Hpos valid ms s tr callers Hc E Hfew.
    destruct (careful_run build workers valid ms [] load_new (all_new _ _) (secure_new _ _) Hc) as (s0 & x & E0 & HS).
    rewrite E in E0. injection E0 as <- <-. exists (effort workers callers s). intros bs Hl Hf.
    destruct (rounds build workers valid callers bs Hpos tr s (all_reached _ _ _ _ _ E) Hfew HS Hf Hl) as (s' & tr' & E' & H1 & H2). eauto.
  Qed.

  (** ** C42 *)
  Lemma settled_callers ms s tr e t : load_run load_new ms = Ok (s, tr) -> settled e s -> crit_c (s_caller s t) <> Some e.
  Proof. intros E H Hc. destruct (all_reached _ _ _ _ _ E) as ((HL & _) & _). unfold settled in H. pose proof (proj1 (HL (ByCaller t) e) Hc). congruence. Qed.
  Lemma settled_workers ms s tr e w : load_run load_new ms = Ok (s, tr) -> settled e s -> crit_w (s_worker s w) <> Some e.
  Proof. intros E H Hc. destruct (all_reached _ _ _ _ _ E) as ((HL & _) & _). unfold settled in H. pose proof (proj1 (HL (ByWorker w) e) Hc). congruence. Qed.
  (** While nobody is inside LoadIR and no job is just delivering: IsLoading means that the latest LoadIR
      call added a job and its response has not been delivered. *)
  Theorem C42_true_means_undelivered : forall ms s tr e, load_run load_new ms = Ok (s, tr) -> settled e s ->
    n_loading (s_engine s e) = true ->
    exists id, last_began e tr = Some id /\ In (Queued id e) tr /\ forall c, ~ In (Pushed id e c) tr.
  Proof.
    intros ms s tr e E HS Hl. destruct (all_reached _ _ _ _ _ E) as (_ & _ & HF & _).
    destruct (f_true _ _ HF e Hl) as [[t Ht]|(id & H1 & H2 & [H3|(w & ld & Hw & He)])].
    - exfalso. apply (settled_callers _ _ _ _ t E HS). destruct (s_caller s t); cbn in *; congruence.
    - exists id. repeat split; auto. intros c Hi. apply H3. exists e, c. auto.
    - exfalso. apply (settled_workers _ _ _ _ w E HS). destruct (s_worker s w); cbn in *; congruence.
  Qed.
  (** If the engine was not reset while it was loading since the latest LoadIR call, IsLoading is exact. *)
  Theorem C42_exact : forall ms s tr e, load_run load_new ms = Ok (s, tr) -> settled e s ->
    forall tr1 t id r tr2, tr = tr1 ++ Began t id e r :: tr2 -> began e tr2 = [] -> ~ In (ResetDone e true) tr2 ->
    (n_loading (s_engine s e) = true <-> In (Queued id e) tr /\ forall c, ~ In (Pushed id e c) tr).
  Proof.
    intros ms s tr e E HS tr1 t id r tr2 Etr Hn Hr. assert (HL : last_began e tr = Some id) by (rewrite Etr; now apply last_began_of). split.
    - intros Hl. destruct (C42_true_means_undelivered ms s tr e E HS Hl) as (id' & H1 & H2). assert (id' = id) as -> by congruence. exact H2.
    - intros [H1 H2]. destruct (all_reached _ _ _ _ _ E) as (_ & _ & HF & _ & HO).
      destruct (f_false _ _ HF _ _ _ _ _ _ Etr HL Hr) as [_ H]. apply H; auto. intros (e' & c & Hi).
      destruct (o_pushed _ _ _ HO _ _ _ Hi) as (ld & L1 & L2 & (t' & x1 & x2 & x3 & Ex & _) & _).
      assert (HB : In (Began t' id e' (l_request ld)) tr) by (rewrite Ex, L1, L2; apply in_elt).
      assert (HB' : In (Began t id e r) tr) by (rewrite Etr; apply in_elt).
      destruct (f_unique _ _ HF _ _ _ _ _ _ _ HB HB') as [-> _]. now apply (H2 c).
  Qed.
  Theorem C42_never_loaded : forall ms s tr e, load_run load_new ms = Ok (s, tr) -> settled e s ->
    began e tr = [] -> n_loading (s_engine s e) = false.
  Proof.
    intros ms s tr e E HS Hn. destruct (n_loading (s_engine s e)) eqn:El; auto.
    destruct (C42_true_means_undelivered ms s tr e E HS El) as (id & H & _). unfold last_began in H. rewrite Hn in H. discriminate.
  Qed.
  (** A reset during loading makes IsLoading false although the response is still to be delivered. *)
  Theorem C42_reset_refuted : forall ms s tr e, load_run load_new ms = Ok (s, tr) -> settled e s ->
    n_loading (s_engine s e) = true -> n_alive (s_engine s e) = true -> n_preparing (s_engine s e) = false ->
    exists s' id, load_run s [CallReset e] = Ok (s', [ResetDone e true]) /\ n_loading (s_engine s' e) = false /\
      last_began e tr = Some id /\ In (Queued id e) tr /\ (forall c, ~ In (Pushed id e c) tr) /\ s_jobs s' = s_jobs s /\ s_worker s' = s_worker s.
  Proof.
    intros ms s tr e E HS Hl Ha Hp. destruct (C42_true_means_undelivered ms s tr e E HS Hl) as (id & H1 & H2 & H3).
    exists (set_engine e (with_loading false (s_engine s e)) s), id. split.
    { rewrite run_one. cbn [load_move]. unfold engine_at. rewrite Ha. cbn [bind]. rewrite Hp, Hl. reflexivity. }
    cbn. rewrite upd_same. repeat split; auto.
  Qed.

  (** ** C43 *)
  (** Engine [e] has called LoadIR for the last time ([id]) and its job has been added; the response is
      not yet delivered and no worker is just delivering it.  Some thread is inside LoadIR of an engine
      [e'] with the same pool, about to call removeAllJobs.  Then the response of [id] is never
      delivered, whatever happens, and IsLoading of [e] stays true. *)
  Theorem C43_cancelled_by_another_engine_refuted : forall ms s tr, load_run load_new ms = Ok (s, tr) ->
    forall tr1 t id e r tr2, tr = tr1 ++ Began t id e r :: tr2 -> In (Queued id e) tr2 -> (forall c, ~ In (Pushed id e c) tr) ->
    (forall w ld c, s_worker s w = WPush ld c -> l_id ld <> id) ->
    forall t' e' id' r', s_caller s t' = CRemove e' id' r' -> e' <> e ->
    forall ms' s' tr', load_run s (StepCaller t' :: ms') = Ok (s', tr') ->
    (forall c, ~ In (Pushed id e c) tr') /\
    (began e (tr2 ++ tr') = [] -> ~ In (ResetDone e true) (tr2 ++ tr') -> n_loading (s_engine s' e) = true).
  Proof.
    intros ms s tr E tr1 t id e r tr2 Etr HQ Hnp Hnw t' e' id' r' Hc _ ms' s' tr' E'.
    pose proof (all_reached _ _ _ _ _ E) as HA. pose proof HA as ((HL & HP & HN) & _ & HF & _ & HO).
    assert (HQ' : In (Queued id e) tr) by (rewrite Etr; apply in_app_iff; right; now right).
    change (StepCaller t' :: ms') with ([StepCaller t'] ++ ms') in E'. apply run_app_inv in E' as (s1 & x1 & x2 & E1 & E2 & ->).
    rewrite run_one in E1. pose proof (all_move build workers _ _ _ _ _ HA E1) as HA1.
    cbn [load_move] in E1. unfold caller_step in E1. rewrite Hc in E1. injection E1 as <- <-.
    assert (HD : doomed id (set_caller t' (CSpec e' id' r') (set_jobs (remove_all (s_jobs s)) s))).
    { split; [cbn; now apply (f_queued _ _ HF) in HQ'|]. split; [|split].
      - cbn. intros j Hj _. now apply in_remove_all in Hj as (_ & Hj & _).
      - cbn. intros t0 e0. unfold upd. destruct (Nat.eqb_spec t0 t') as [->|]; [|now apply (o_queued _ _ _ HO id e)].
        cbn. intros [= -> ->]. apply (o_queued _ _ _ HO id e e0 t' HQ'). now rewrite Hc.
      - cbn. intros w ld Hw. destruct (s_worker s w) eqn:Ew; cbn in Hw; try discriminate. injection Hw as ->. eauto. }
    destruct (doomed_run build workers ms' _ _ _ _ id HA1 HD E2) as [HD' Hx]. split.
    { intros c [Hi|Hi]; [discriminate|]. now apply (Hx e c). }
    intros Hn Hr. pose proof (all_run build workers ms' _ _ _ _ HA1 E2) as (_ & _ & HF2 & _ & HO2).
    rewrite <- app_assoc in HF2, HO2. assert (Etr2 : tr ++ [Cancelled id' e'] ++ x2 = tr1 ++ Began t id e r :: tr2 ++ [Cancelled id' e'] ++ x2) by (rewrite Etr, <- app_assoc; reflexivity).
    destruct (f_false _ _ HF2 tr1 t id e r _ Etr2) as [_ H]; [rewrite Etr2; now apply last_began_of|exact Hr|].
    apply H; [apply in_app_iff; auto|]. intros (e0 & c & Hi).
    assert (e0 = e) as ->.
    { destruct (o_pushed _ _ _ HO2 _ _ _ Hi) as (ld & L1 & L2 & (t0 & y1 & y2 & y3 & Ey & _) & _).
      assert (HB : In (Began t0 id e0 (l_request ld)) (tr ++ [Cancelled id' e'] ++ x2)) by (rewrite Ey, L1, L2; apply in_elt).
      assert (HB' : In (Began t id e r) (tr ++ [Cancelled id' e'] ++ x2)) by (rewrite Etr2; apply in_elt).
      now destruct (f_unique _ _ HF2 _ _ _ _ _ _ _ HB HB'). }
    apply in_app_iff in Hi as [Hi|[Hi|Hi]]; [now apply (Hnp c)|discriminate|now apply (Hx e c)].
  Qed.

  (** ** C44 *)
  (** A LoadIR call that returns before the engine is prepared is lost: its response is never delivered. *)
  Theorem C44_loaded_before_prepare_refuted : forall ms s tr, load_run load_new ms = Ok (s, tr) ->
    forall tr1 t id e tr2, tr = tr1 ++ Returned t id e :: tr2 -> last_prepared e tr1 = None ->
    forall e' c, ~ In (Pushed id e' c) tr.
  Proof.
    intros ms s tr E tr1 t id e tr2 Etr Hp e' c Hi. destruct (all_reached _ _ _ _ _ E) as (_ & _ & HF & _ & HO).
    destruct (call_order_run _ _ _ _ _ E) as (_ & _ & _ & K4 & _).
    destruct (o_pushed _ _ _ HO _ _ _ Hi) as (ld & L1 & L2 & (t' & x1 & x2 & x3 & Ex & Hlp) & _). rewrite L1, L2 in *.
    assert (e' = e) as ->.
    { assert (HR : In id (began e tr)) by (apply (returned_began build workers ms s tr t); auto; rewrite Etr; apply in_elt).
      apply began_in in HR as (t0 & r0 & HR). assert (HB : In (Began t' id e' (l_request ld)) tr) by (rewrite Ex; apply in_elt).
      now destruct (f_unique _ _ HF _ _ _ _ _ _ _ HB HR). }
    (* the job was added before the call returned *)
    set (y := x1 ++ Began t' id e (l_request ld) :: x2) in *.
    assert (Ey : tr = y ++ Queued id e :: x3) by (rewrite Ex; unfold y; now rewrite <- app_assoc).
    assert (Hsplit : exists z, tr1 = y ++ z).
    { rewrite Etr in Ey. assert (Hn : ~ In (Queued id e) tr2) by now apply (K4 tr1 t id e tr2 e).
      clearbody y. clear -Ey Hn. revert y Ey. induction tr1 as [|a tr1 IH]; intros y Ey.
      - cbn in Ey. destruct y as [|b y]; [discriminate|]. injection Ey as <- ->. destruct Hn. apply in_elt.
      - destruct y as [|b y]; [exists (a :: tr1); auto|]. injection Ey as <- Ey. destruct (IH y Ey) as [z ->]. exists z. auto. }
    destruct Hsplit as [z Ez]. assert (Hq : last_prepared e y <> None) by congruence. apply prepared_in in Hq as [p Hq].
    assert (last_prepared e tr1 <> None); [|auto]. apply prepared_in. exists p. rewrite Ez. apply in_app_iff. auto.
  Qed.
  (** A LoadIR call made on a prepared engine adds a job. *)
  Theorem C44_loaded_after_prepare : forall ms s tr, load_run load_new ms = Ok (s, tr) ->
    forall tr1 t id e r tr2, tr = tr1 ++ Began t id e r :: tr2 -> last_prepared e tr1 <> None ->
    In (Returned t id e) tr -> In (Queued id e) tr.
  Proof.
    intros ms s tr E tr1 t id e r tr2 Etr Hp HR. destruct (all_reached _ _ _ _ _ E) as (_ & _ & _ & _ & HO).
    apply (o_done _ _ _ HO t e id HR). exists t, r, tr1, tr2. auto.
  Qed.

  (** ** C45 *)
  (** If engines are destroyed only when nothing of them is going on, nothing undefined happens. *)
  Theorem C45_safe : forall valid ms, careful build workers valid load_new ms ->
    exists s tr, load_run load_new ms = Ok (s, tr).
  Proof.
    intros valid ms Hc. destruct (careful_run build workers valid ms [] load_new (all_new _ _) (secure_new _ _) Hc) as (s & x & E & _). eauto.
  Qed.
  (** Destroying an engine while a worker constructs a convolver for it: the worker then locks a mutex
      that no longer exists. *)
  Theorem C45_destroyed_while_building_refuted : forall (s : state) e w ld c,
    n_alive (s_engine s e) = true -> n_lock (s_engine s e) = None -> w < workers ->
    s_worker s w = WBuild ld -> l_engine ld = e -> build (l_request ld) (l_spec ld) = Ok c ->
    load_run s [DestroyEngine e; StepWorker w; StepWorker w] = Undef.
  Proof.
    intros s e w ld c Ha Hl Hw Ew <- Eb. apply Nat.ltb_lt in Hw. cbn [Loader.load_run load_move]. unfold engine_at. rewrite Ha. cbn [bind]. rewrite Hl. cbn [bind].
    rewrite Hw. unfold worker_step at 1. cbn [s_worker set_engine]. rewrite Ew, Eb. cbn [bind]. unfold worker_step. cbn [s_worker set_engine set_worker].
    rewrite upd_same. unfold engine_at. cbn. rewrite upd_same. reflexivity.
  Qed.
  (** Destroying an engine while a notification is waiting for the message thread. *)
  Theorem C45_destroyed_before_the_message_refuted : forall (s : state) e l,
    n_alive (s_engine s e) = true -> n_lock (s_engine s e) = None -> s_messages s = e :: l ->
    load_run s [DestroyEngine e; Message] = Undef.
  Proof.
    intros s e l Ha Hl Em. cbn [Loader.load_run load_move]. unfold engine_at at 1. rewrite Ha. cbn [bind]. rewrite Hl. cbn [bind].
    cbn [s_messages set_engine]. rewrite Em. unfold engine_at. cbn. rewrite upd_same. reflexivity.
  Qed.

  (** ** C48 *)
  (** When everything is at rest, what the listeners were told last is the truth, if the engine was never
      reset while it was loading. *)
  Theorem C48_listeners_know : forall ms s tr e, load_run load_new ms = Ok (s, tr) ->
    quiescent s -> s_messages s = [] -> ~ In (ResetDone e true) tr -> last_notified e tr = n_loading (s_engine s e).
  Proof.
    intros ms s tr e E (Q1 & Q2 & Q3) Hm Hr. destruct (all_reached _ _ _ _ _ E) as (_ & _ & _ & HNo & _).
    destruct (HNo e Hr) as [[t H]|[[w H]|[H|H]]]; auto; [rewrite Q1 in H|rewrite Q2 in H|rewrite Hm in H]; easy.
  Qed.
  (** A reset during loading is not announced: the listeners go on believing that it loads. *)
  Theorem C48_reset_is_silent_refuted : forall ms s tr e, load_run load_new ms = Ok (s, tr) ->
    n_loading (s_engine s e) = true -> n_alive (s_engine s e) = true -> n_preparing (s_engine s e) = false -> last_notified e tr = true ->
    exists s' tr', load_run s [CallReset e] = Ok (s', tr') /\ n_loading (s_engine s' e) = false /\ last_notified e (tr ++ tr') = true.
  Proof.
    intros ms s tr e E Hl Ha Hp Hn. eexists _, _. split.
    { rewrite run_one. cbn [load_move]. unfold engine_at. rewrite Ha. cbn [bind]. rewrite Hp. reflexivity. }
    rewrite last_notified_snoc. cbn. rewrite upd_same. auto.
  Qed.

  (** ** C49 *)
  (** What is delivered was built of the arguments of its LoadIR call and of the specification with which
      the engine was last prepared when the job was made. *)
  Theorem C49_built_from : forall ms s tr, load_run load_new ms = Ok (s, tr) ->
    forall id e c, In (Pushed id e c) tr -> exists t r p tr1 tr2 tr3,
    tr = tr1 ++ Began t id e r :: tr2 ++ Queued id e :: tr3 /\
    last_prepared e (tr1 ++ Began t id e r :: tr2) = Some p /\ build r p = Ok c.
  Proof.
    intros ms s tr E id e c Hi. destruct (all_reached _ _ _ _ _ E) as (_ & _ & _ & _ & HO).
    destruct (o_pushed _ _ _ HO _ _ _ Hi) as (ld & <- & <- & (t & x1 & x2 & x3 & Ex & Hp) & Hb).
    exists t, (l_request ld), (l_spec ld), x1, x2, x3. auto.
  Qed.

  (** ** C50 *)
  (** Calls of LoadIR and jobs do not race with each other: the mutex keeps them apart. *)
  Theorem C50_loads_do_not_race : forall ms s tr, load_run load_new ms = Ok (s, tr) ->
    forall m m', m <> m' -> (exists t, m = StepCaller t) \/ (exists w, m = StepWorker w) ->
    (exists t, m' = StepCaller t) \/ (exists w, m' = StepWorker w) -> ~ race s m m'.
  Proof.
    intros ms s tr E m m' Hne Hm Hm' (e & a & x & x' & T & T' & _).
    destruct (all_reached _ _ _ _ _ E) as ((HL & _) & _).
    assert (HH : forall n, (exists t, n = StepCaller t) \/ (exists w, n = StepWorker w) -> forall b y, touches s n = Some (e, b, y) ->
      exists o, holds s o e /\ n = match o with ByCaller t => StepCaller t | ByWorker w => StepWorker w end).
    { intros n [[t ->]|[w ->]] b y Hn; cbn in Hn.
      - exists (ByCaller t). cbn. split; auto. destruct (s_caller s t); cbn; congruence.
      - exists (ByWorker w). cbn. split; auto. destruct (s_worker s w); cbn; congruence. }
    destruct (HH m Hm _ _ T) as (o & H1 & ->). destruct (HH m' Hm' _ _ T') as (o' & H2 & ->).
    now rewrite (locks_excl s o o' e HL H1 H2) in Hne.
  Qed.
  (** prepare, reset, Clear and the notification on the message thread do not take the mutex: a job that
      is finishing races with reset, a LoadIR call with prepare. *)
  Theorem C50_races_refuted : 0 < workers -> forall r p c, build r p = Ok c ->
    (exists ms s tr, load_run load_new ms = Ok (s, tr) /\ race s (StepWorker 0) (CallReset 0) /\
       (exists y, load_run s [StepWorker 0] = Ok y) /\ (exists y, load_run s [CallReset 0] = Ok y)) /\
    (exists ms s tr, load_run load_new ms = Ok (s, tr) /\ race s (StepCaller 0) (CallPrepare 0 p) /\
       (exists y, load_run s [StepCaller 0] = Ok y) /\ (exists y, load_run s [CallPrepare 0 p] = Ok y)).
  Proof.
    intros Hw r p c Hb. destruct workers as [|n]; [lia|]. split.
    - set (ms := CallPrepare 0 p :: Preparing 0 :: CallLoadIR 0 0 r :: repeat (StepCaller 0) 7 ++ repeat (StepWorker 0) 5).
      exists ms. assert (E : exists s tr, Loader.load_run build (S n) load_new ms = Ok (s, tr) /\ s_worker s 0 = WFlag {| l_id := 0; l_engine := 0; l_request := r; l_spec := p |} /\
        n_alive (s_engine s 0) = true /\ n_preparing (s_engine s 0) = false).
      { subst ms. eexists _, _. split; [vm_compute; rewrite Hb; vm_compute; reflexivity|]. repeat split. }
      destruct E as (s & tr & E & Ew & Ha & Hp). exists s, tr. split; [exact E|]. split.
      { exists 0, IsLoading, true, true. cbn [touches]. rewrite Ew. auto. }
      rewrite !run_one. cbn [load_move]. unfold worker_step. change (0 <? S n) with true. cbv iota. rewrite Ew. cbn [l_engine]. unfold engine_at. rewrite Ha. cbn [bind]. rewrite Hp. eauto.
    - set (ms := CallPrepare 0 p :: Preparing 0 :: CallLoadIR 0 0 r :: repeat (StepCaller 0) 5).
      exists ms. assert (E : exists s tr, Loader.load_run build (S n) load_new ms = Ok (s, tr) /\ s_caller s 0 = CAdd 0 0 r /\
        n_alive (s_engine s 0) = true /\ n_preparing (s_engine s 0) = false /\ n_spec (s_engine s 0) = Some p).
      { subst ms. eexists _, _. split; [vm_compute; reflexivity|]. repeat split. }
      destruct E as (s & tr & E & Ew & Ha & Hp & Hs). exists s, tr. split; [exact E|]. split.
      { exists 0, Spec, false, true. cbn [touches]. rewrite Ew. auto. }
      rewrite !run_one. cbn [load_move]. unfold caller_step. rewrite Ew. unfold engine_at. rewrite Ha. cbn [bind]. rewrite Hp, Hs. cbn [bind]. eauto.
  Qed.

  (** ** C51 *)
  (** While LoadIR calls the listeners it holds the mutex: a LoadIR call on the same engine does not get
      on before the listener returns.  (So a listener that waits for one, or makes one, waits for ever.) *)
  Theorem C51_listener_deadlock_refuted : forall ms s tr, load_run load_new ms = Ok (s, tr) ->
    forall t t' e id r r', s_caller s t = CEmit e id r -> s_caller s t' = CLock e r' ->
    forall ms' s' tr', load_run s ms' = Ok (s', tr') -> ~ In (StepCaller t) ms' -> s_caller s' t' = CLock e r'.
  Proof.
    intros ms s tr E t t' e id r r' Ht Ht'. pose proof (all_reached _ _ _ _ _ E) as ((HL & _) & _).
    assert (Hlk : n_lock (s_engine s e) = Some (ByCaller t)) by (apply (HL (ByCaller t) e); cbn; now rewrite Ht). clear E.
    intros ms'. revert s Ht Ht' HL Hlk. induction ms' as [|m ms' IH]; intros s Ht Ht' HL Hlk s' tr' E Hn; cbn [Loader.load_run] in E.
    { injection E as <- <-. auto. }
    destruct (load_move build workers s m) as [[s1 y]| |] eqn:E1; cbn [bind] in E; try discriminate.
    destruct (load_run s1 ms') as [[s2 z]| |] eqn:E2; cbn [bind] in E; try discriminate. injection E as <- <-.
    apply (IH s1) with (tr' := z); auto.
    - assert (Hm : m <> StepCaller t) by (intros ->; apply Hn; now left).
      clear -E1 Ht Hm. rename t into tt, e into ee, id into kk, r into rr. load_moves build workers m E1; auto; cbn; unfold upd; destruct (Nat.eqb_spec tt t) as [->|]; auto; congruence.
    - assert (Hm : m <> StepCaller t) by (intros ->; apply Hn; now left).
      clear -E1 Ht' Hlk. rename t into tt, e into ee, r' into rr. load_moves build workers m E1; auto; cbn; unfold upd; destruct (Nat.eqb_spec t' t) as [->|]; auto; congruence.
    - apply (locks_move build workers s m s1 y HL E1).
    - assert (Hm : m <> StepCaller t) by (intros ->; apply Hn; now left).
      pose proof (locks_move build workers s m s1 y HL E1) as HL1. apply (HL1 (ByCaller t) e). cbn.
      clear -E1 Ht Hm. rename t into tt, e into ee, id into kk, r into rr. load_moves build workers m E1; cbn; rewrite ?Ht; auto; unfold upd; destruct (Nat.eqb_spec tt t) as [->|]; cbn; rewrite ?Ht; auto; congruence.
    - intros Hi. apply Hn. now right.
  Qed.
End Props.
Print Assumptions C40_only_the_latest_is_delivered.
Print Assumptions C40_in_order.
Print Assumptions C40_nothing_older.
Print Assumptions C41_delivered.
Print Assumptions C41_own_pool.
Print Assumptions C41_comes_to_rest.
Print Assumptions C42_true_means_undelivered.
Print Assumptions C42_exact.
Print Assumptions C42_never_loaded.
Print Assumptions C42_reset_refuted.
Print Assumptions C43_cancelled_by_another_engine_refuted.
Print Assumptions C44_loaded_before_prepare_refuted.
Print Assumptions C44_loaded_after_prepare.
Print Assumptions C45_safe.
Print Assumptions C45_destroyed_while_building_refuted.
Print Assumptions C45_destroyed_before_the_message_refuted.
Print Assumptions C48_listeners_know.
Print Assumptions C48_reset_is_silent_refuted.
Print Assumptions C49_built_from.
Print Assumptions C50_loads_do_not_race.
Print Assumptions C50_races_refuted.
Print Assumptions C51_listener_deadlock_refuted.

(** ** Examples: concrete executions that meet the hypotheses *)
Ltac vr := vm_compute; reflexivity.
(** Two loads of one engine; the first is cancelled while a worker builds it (C40, C41, C42, C48, C49). *)
Definition toy_two : list (move nat) :=
  toy_prepare 0 64 ++ toy_load 0 0 10 ++ [StepWorker 0] ++ toy_load 1 0 11 ++ toy_work 1 ++ toy_work 0 ++ [Message].
Example C40_example : toy_run toy_two = Ok (toy_state toy_two, toy_trace toy_two) /\
  toy_trace toy_two = [Prepared 0 (toy_spec 64); ResetDone 0 false; Began 0 0 0 10; Cancelled 0 0; Notified 0 true; Queued 0 0; Returned 0 0 0;
    Began 1 1 0 11; Cancelled 1 0; Notified 0 true; Queued 1 0; Returned 1 1 0; Pushed 1 0 (11, 64); Notified 0 false] /\
  pushed 0 (toy_trace toy_two) = [1] /\ began 0 (toy_trace toy_two) = [0; 1].
Proof. split; [apply toy_ok; vr|]. split; [vr|]. split; vr. Qed.
Example C41_example : let s := toy_state toy_two in
  toy_run toy_two = Ok (s, toy_trace toy_two) /\ quiescent s /\ s_messages s = [] /\
  n_loading (s_engine s 0) = false /\ settled 0 s /\ last_notified 0 (toy_trace toy_two) = false /\
  (forall id' e', In (Cancelled id' e') (skipn 8 (toy_trace toy_two)) -> id' = 1) /\ ~ In (ResetDone 0 true) (toy_trace toy_two).
Proof.
  cbv zeta. split; [apply toy_ok; vr|]. split; [|split; [vr|split; [vr|split; [vr|split; [vr|split]]]]].
  - split; [|split; [|vr]]; intros [|[|n]]; vr.
  - destruct C40_example as (_ & -> & _). cbn. intuition congruence.
  - destruct C40_example as (_ & -> & _). cbn. intuition congruence.
Qed.
(** the same, before the second job is finished: IsLoading is true *)
Definition toy_half : list (move nat) := toy_prepare 0 64 ++ toy_load 0 0 10 ++ [StepWorker 0] ++ toy_load 1 0 11 ++ [StepWorker 1].
Example C42_example : let s := toy_state toy_half in
  toy_run toy_half = Ok (s, toy_trace toy_half) /\ settled 0 s /\ n_loading (s_engine s 0) = true /\
  last_notified 0 (toy_trace toy_half) = true /\ last_began 0 (toy_trace toy_half) = Some 1 /\
  nth 10 (toy_trace toy_half) (EngineDestroyed 0) = Queued 1 0 /\ n_alive (s_engine s 0) = true /\ n_preparing (s_engine s 0) = false.
Proof. cbv zeta. split; [apply toy_ok; vr|]. repeat (split; [vr|]). vr. Qed.
(** ... and false after a reset, although the response arrives later *)
Example C42_reset_example :
  n_loading (s_engine (toy_state (toy_half ++ [CallReset 0])) 0) = false /\
  pushed 0 (toy_trace (toy_half ++ [CallReset 0])) = [] /\ pushed 0 (toy_trace (toy_half ++ [CallReset 0] ++ toy_work 1)) = [1].
Proof. split; [vr|split; vr]. Qed.
(** Rounds in which everybody moves, and a careful history (C41, C45). *)
Example C41_rest_example : fair 2 2 ([StepCaller 0; StepCaller 1; StepWorker 0; StepWorker 1; Message] : list (move nat)) /\
  careful toy_build 2 (fun _ => True) load_new toy_half.
Proof.
  split.
  - split; [cbn; intuition (subst; exact I)|]. split; [|split; [|cbn; tauto]]; intros [|[|n]]; cbn; try lia; tauto.
  - assert (H : forall ms s, n_alive (s_engine s 0) = true -> forallb (fun m => match m with CallLoadIR _ 0 _ | CallPrepare 0 _ | Preparing 0 | StepCaller _ | StepWorker _ => true | _ => false end) ms = true ->
      careful toy_build 2 (fun _ => True) s ms).
    { induction ms as [|m ms IH]; intros s Ha Hm; cbn [careful]; [exact I|]. cbn [forallb] in Hm. apply andb_prop in Hm as [Hm Hms]. split.
      - assert (Hx : (forall e, uses e m -> e = 0) /\ forall e, m <> DestroyEngine e) by (destruct m as [t [|e] r|t|w|[|e] p|[|e]|e| |e]; try discriminate; cbn; split; try easy; auto).
        destruct Hx as [Hx Hy]. split; [intros e He; now rewrite (Hx e He)|]. split; [intros; eexists; reflexivity|]. split; auto. intros e ->. now destruct (Hy e).
      - destruct (load_move toy_build 2 s m) as [[s' x]| |] eqn:E; auto. apply IH; auto. clear IH.
        load_moves toy_build 2 m E; auto; try discriminate; cbn; unfold upd; match goal with |- context [0 =? ?e] => destruct (Nat.eqb_spec 0 e) as [<- |]; auto end. }
    apply H; vr.
Qed.
(** Two engines with one pool: engine 0 never gets its response and goes on loading for ever (C43). *)
Definition toy_shared : list (move nat) :=
  toy_prepare 0 64 ++ toy_prepare 1 64 ++ toy_load 0 0 10 ++ [StepWorker 0] ++ [CallLoadIR 1 1 20; StepCaller 1].
Example C43_example :
  (let s := toy_state toy_shared in
   toy_run toy_shared = Ok (s, toy_trace toy_shared) /\
   toy_trace toy_shared = [Prepared 0 (toy_spec 64); ResetDone 0 false; Prepared 1 (toy_spec 64); ResetDone 1 false] ++ Began 0 0 0 10 ::
     [Cancelled 0 0; Notified 0 true; Queued 0 0; Returned 0 0 0; Began 1 1 1 20] /\
   s_caller s 1 = CRemove 1 1 20 /\ (forall w ld c, s_worker s w = WPush ld c -> l_id ld <> 0)) /\
  (let ms := toy_shared ++ repeat (StepCaller 1) 6 ++ toy_work 1 ++ toy_work 0 ++ [Message; Message] in
   toy_run ms = Ok (toy_state ms, toy_trace ms) /\ quiescent (toy_state ms) /\ pushed 0 (toy_trace ms) = [] /\ pushed 1 (toy_trace ms) = [1] /\
   n_loading (s_engine (toy_state ms) 0) = true).
Proof.
  cbv zeta. split.
  - split; [apply toy_ok; vr|]. split; [vr|]. split; [vr|]. intros [|[|w]] ld c H; vm_compute in H; discriminate.
  - split; [apply toy_ok; vr|]. split; [|repeat split; vr]. split; [|split; [|vr]]; intros [|[|n]]; vr.
Qed.
(** The order of the README: LoadIR, then prepare (C44). *)
Example C44_example : let ms := toy_load 0 0 10 ++ toy_prepare 0 64 ++ toy_work 0 ++ toy_work 1 in
  toy_trace ms = [Began 0 0 0 10; Cancelled 0 0] ++ Returned 0 0 0 :: [Prepared 0 (toy_spec 64); ResetDone 0 false] /\
  last_prepared 0 (firstn 2 (toy_trace ms)) = None.
Proof. split; vr. Qed.
(** Destroying the engine (C45).  The members of the README's example are destroyed in the order engine,
    pool. *)
Example C45_example :
  let loaded := toy_prepare 0 64 ++ toy_load 0 0 10 in
  toy_run (loaded ++ [StepWorker 0] ++ [DestroyEngine 0] ++ [StepWorker 0; StepWorker 0]) = Undef /\
  toy_run (loaded ++ [DestroyEngine 0] ++ [StepWorker 0; StepWorker 0; StepWorker 0]) = Undef /\
  toy_run (loaded ++ toy_work 0 ++ [DestroyEngine 0; Message]) = Undef /\
  forgotten 0 (toy_state (loaded ++ toy_work 0 ++ [Message])) /\
  (let ms := loaded ++ toy_work 0 ++ [Message] ++ [DestroyEngine 0] in toy_run ms = Ok (toy_state ms, toy_trace ms)).
Proof.
  cbv zeta. split; [vr|]. split; [vr|]. split; [vr|]. split.
  - split; [intros [|n]; vm_compute; discriminate|]. split; [vm_compute; easy|vm_compute; easy].
  - apply toy_ok. vr.
Qed.
(** The specification of the delivered convolver may be older than the last prepare (C49). *)
Example C49_example : toy_trace (toy_prepare 0 64 ++ toy_load 0 0 10 ++ toy_prepare 0 128 ++ toy_work 0) =
  [Prepared 0 (toy_spec 64); ResetDone 0 false] ++ Began 0 0 0 10 :: [Cancelled 0 0; Notified 0 true] ++
  Queued 0 0 :: [Returned 0 0 0; Prepared 0 (toy_spec 128); ResetDone 0 true; Pushed 0 0 (10, 64)].
Proof. vr. Qed.
(** A listener inside LoadIR and a second caller (C50, C51). *)
Example C51_example : let ms := toy_prepare 0 64 ++ [CallLoadIR 0 0 10; CallLoadIR 1 0 11] ++ repeat (StepCaller 0) 4 ++ [StepCaller 1] in
  let s := toy_state ms in toy_run ms = Ok (s, toy_trace ms) /\ s_caller s 0 = CEmit 0 0 10 /\ s_caller s 1 = CLock 0 11 /\
    touches s (StepCaller 0) = Some (0, IsLoading, false).
Proof. cbv zeta. split; [apply toy_ok; vr|]. repeat (split; [vr|]). vr. Qed.
(** The real constructor is one of the [build]s. *)
Example C49_convolver_example : forall (A : arith) (R : rfft A) ms s tr,
  load_run (convolver_build R) 2 load_new ms = Ok (s, tr) -> forall id e c, In (Pushed id e c) tr ->
  exists t ir spec p, In (Began t id e (ir, spec)) tr /\ conv_make R ir (ps_max_block p) spec = Ok c.
Proof.
  intros A R ms s tr E id e c Hi. destruct (C49_built_from (convolver_build R) 2 ms s tr E id e c Hi) as (t & [ir spec] & p & x1 & x2 & x3 & -> & _ & Hb).
  exists t, ir, spec, p. split; [apply in_elt|exact Hb].
Qed.

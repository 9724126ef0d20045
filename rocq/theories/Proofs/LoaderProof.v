(** * Lemmas about loading: invariants of all schedules *)
From Coq Require Import Permutation.
From Verif.Model Require Import Base ConvolutionEngine Loader.
From Verif.Spec Require Import Loading.

Lemma upd_same {T} (f : nat -> T) i x : upd f i x i = x.
Proof. unfold upd. now rewrite Nat.eqb_refl. Qed.
Lemma upd_other {T} (f : nat -> T) i x j : j <> i -> upd f i x j = f j.
Proof. intros H. unfold upd. apply Nat.eqb_neq in H. now rewrite H. Qed.
Lemma snoc_split {T} (l : list T) x l1 y l2 : l ++ [x] = l1 ++ y :: l2 ->
  (l2 = [] /\ l1 = l /\ y = x) \/ (exists l3, l2 = l3 ++ [x] /\ l = l1 ++ y :: l3).
Proof.
  intros H. destruct l2 as [|z l2] using rev_ind; [left|right; clear IHl2].
  - apply app_inj_tail in H as [-> ->]. auto.
  - replace (l1 ++ y :: l2 ++ [z]) with ((l1 ++ y :: l2) ++ [z]) in H by now rewrite <- app_assoc.
    apply app_inj_tail in H as [-> ->]. eauto.
Qed.

Section Trace.
  Context {request conv : Type}.
  Notation trace := (list (event request conv)).
  Implicit Types tr : trace.

  Lemma last_began_snoc e tr x : last_began e (tr ++ [x]) =
    match x with Began _ id e' _ => if e' =? e then Some id else last_began e tr | _ => last_began e tr end.
  Proof.
    unfold last_began, began. rewrite flat_map_app. cbn. rewrite app_nil_r.
    destruct x; cbn; rewrite ?app_nil_r; auto. destruct (_ =? _); rewrite ?app_nil_r; auto. now rewrite rev_app_distr.
  Qed.
  Lemma last_prepared_snoc e tr x : last_prepared e (tr ++ [x]) =
    match x with Prepared e' s => if e' =? e then Some s else last_prepared e tr | _ => last_prepared e tr end.
  Proof.
    unfold last_prepared. rewrite flat_map_app. cbn. rewrite app_nil_r.
    destruct x; cbn; rewrite ?app_nil_r; auto. destruct (_ =? _); rewrite ?app_nil_r; auto. now rewrite rev_app_distr.
  Qed.
  Lemma last_notified_snoc e tr x : last_notified e (tr ++ [x]) =
    match x with Notified e' b => if e' =? e then b else last_notified e tr | _ => last_notified e tr end.
  Proof.
    unfold last_notified. rewrite flat_map_app. cbn. rewrite app_nil_r.
    destruct x; cbn; rewrite ?app_nil_r; auto. destruct (_ =? _); rewrite ?app_nil_r; auto. apply last_last.
  Qed.
  Lemma in_pushed e tr id : In id (pushed e tr) <-> exists c, In (Pushed id e c) tr.
  Proof.
    unfold pushed. rewrite in_flat_map. split.
    - intros (x & Hx & H). destruct x; try easy. destruct (Nat.eqb_spec e0 e) as [->|]; [|easy]. destruct H as [<- | []]. eauto.
    - intros (c & H). exists (Pushed id e c). split; auto. rewrite Nat.eqb_refl. now left.
  Qed.
End Trace.

Ltac engine_alive :=
  match goal with
  | E : context [engine_at ?s ?e] |- _ =>
      unfold engine_at in E; destruct (n_alive (s_engine s e)) eqn:?; cbn [bind] in E; [|discriminate E]
  end.
Ltac inject :=
  match goal with E : Ok (_, _) = Ok (_, _) |- _ => injection E as <- <- end.
(** all moves that succeed *)
Ltac load_moves build workers m E :=
  destruct m as [t e r|t|w|e p|e|e| |e]; cbn [Loader.load_move] in E;
  [ destruct (s_caller _ t) eqn:Et in E; try (injection E as <- <-); try engine_alive; try inject
  | unfold caller_step in E; destruct (s_caller _ t) as [|e r|e id r|e id r|e id r|e id r|e id r|e id] eqn:Et in E;
    try engine_alive; try (destruct (n_lock _) eqn:? in E); try (destruct (n_spec _) as [p|] eqn:? in E; cbn [bind] in E; try discriminate E); try inject
  | destruct (w <? workers) eqn:Hw in E; [|inject];
    try (unfold worker_step in E; destruct (s_worker _ w) as [|ld|ld c|ld c|ld c|ld|ld|ld|ld] eqn:Ew in E;
    try (destruct (pick _) as [[ld|] l] eqn:Ep in E); try (destruct (build _ _) as [c| |] eqn:Eb in E; cbn [bind] in E; try discriminate E);
    try engine_alive; try (destruct (n_lock _) eqn:? in E); try (destruct (should_exit _ _) eqn:? in E); try inject)
  | engine_alive; destruct (n_preparing _) eqn:? in E; inject
  | engine_alive; destruct (n_preparing _) eqn:? in E; inject
  | engine_alive; destruct (n_preparing _) eqn:? in E; inject
  | destruct (s_messages _) as [|e l] eqn:Em in E; try engine_alive; inject
  | engine_alive; destruct (n_lock _) eqn:? in E; try discriminate E; inject ].

Section Proof.
  Context {request conv : Type}.
  Variable build : request -> process_spec -> res conv.
  Variable workers : nat.
  Notation trace := (list (event request conv)).
  Notation state := (state request conv).
  Notation job := (job request).
  Notation load_move := (@load_move request conv build workers).
  Notation load_run := (@load_run request conv build workers).
  Implicit Types (tr : trace) (s : state).

  (** ** Runs *)
  Lemma run_app s ms1 ms2 : load_run s (ms1 ++ ms2) =
    (' (s, x) <- load_run s ms1 ;; ' (s, y) <- load_run s ms2 ;; Ok (s, x ++ y)).
  Proof.
    revert s. induction ms1 as [|m ms1 IH]; intros s; cbn [app Loader.load_run].
    { cbn [bind]. destruct (load_run s ms2) as [[? ?]| |]; reflexivity. }
    destruct (load_move s m) as [[s1 x]| |]; cbn [bind]; auto. rewrite IH.
    destruct (load_run s1 ms1) as [[s2 y]| |]; cbn [bind]; auto.
    destruct (load_run s2 ms2) as [[s3 z]| |]; cbn [bind]; auto. now rewrite app_assoc.
  Qed.
  Lemma run_one s m : load_run s [m] = load_move s m.
  Proof. cbn. destruct (load_move s m) as [[s1 x]| |]; cbn; rewrite ?app_nil_r; reflexivity. Qed.
  Lemma run_app_inv s ms1 ms2 s' tr : load_run s (ms1 ++ ms2) = Ok (s', tr) ->
    exists s1 tr1 tr2, load_run s ms1 = Ok (s1, tr1) /\ load_run s1 ms2 = Ok (s', tr2) /\ tr = tr1 ++ tr2.
  Proof.
    rewrite run_app. destruct (load_run s ms1) as [[s1 x]| |]; cbn [bind]; try discriminate.
    destruct (load_run s1 ms2) as [[s2 y]| |] eqn:E; cbn [bind]; try discriminate. intros [= <- <-]. eauto 6.
  Qed.
  (** An invariant of states and traces, preserved by every move *)
  Lemma run_ind (P : trace -> state -> Prop) :
    (forall tr s m s' x, P tr s -> load_move s m = Ok (s', x) -> P (tr ++ x) s') ->
    forall ms tr s s' x, P tr s -> load_run s ms = Ok (s', x) -> P (tr ++ x) s'.
  Proof.
    intros H. induction ms as [|m ms IH]; intros tr s s' x HP E; cbn in E.
    - injection E as <- <-. now rewrite app_nil_r.
    - destruct (load_move s m) as [[s1 y]| |] eqn:E1; cbn [bind] in E; try discriminate.
      destruct (load_run s1 ms) as [[s2 z]| |] eqn:E2; cbn [bind] in E; try discriminate. injection E as <- <-.
      rewrite app_assoc. eapply IH; eauto.
  Qed.

  (** ** The mutex *)
  (** the engine whose mutex a thread holds *)
  Definition crit_c (c : caller request) : option nat :=
    match c with
    | CIdle | CLock _ _ => None
    | CRemove e _ _ | CSpec e _ _ | CFlag e _ _ | CEmit e _ _ | CAdd e _ _ | CUnlock e _ => Some e
    end.
  Definition crit_w (k : worker request conv) : option nat :=
    match k with
    | WIdle | WBuild _ | WLock _ _ | WFinish _ => None
    | WCheck l _ | WPush l _ | WFlag l | WAsync l | WUnlock l => Some (l_engine l)
    end.
  Definition holds s (o : owner) (e : nat) : Prop :=
    match o with
    | ByCaller t => crit_c (s_caller s t) = Some e
    | ByWorker w => crit_w (s_worker s w) = Some e
    end.
  Definition locks s : Prop := forall o e, holds s o e <-> n_lock (s_engine s e) = Some o.

  Lemma locks_excl s o o' e : locks s -> holds s o e -> holds s o' e -> o = o'.
  Proof. intros H H1 H2. apply H in H1. apply H in H2. congruence. Qed.

  (** How a thread moves: its new program point and what happens to the mutexes *)
  Lemma locks_new : locks load_new.
  Proof. intros o e. destruct o; cbn; split; discriminate. Qed.

  Ltac moves m E := load_moves build workers m E.

  Lemma locks_move s m s' x : locks s -> load_move s m = Ok (s', x) -> locks s'.
  Proof.
    intros H E. moves m E; auto.
    all: intros o' e'; pose proof (H o' e') as H1.
    all: try (pose proof (H (ByCaller t) e') as H2; pose proof (H (ByCaller t) e) as H3).
    all: try (pose proof (H (ByWorker w) e') as H2; pose proof (H (ByWorker w) (l_engine ld)) as H3).
    all: destruct o' as [t'|w']; cbn in *; unfold upd in *.
    all: repeat match goal with
         | |- context [?a =? ?b] => destruct (Nat.eqb_spec a b); subst
         end; rewrite ?Et, ?Ew in *; cbn in *; try solve [intuition congruence].
  Qed.

  (** ** The pool *)
  Lemma pick_spec l o l' : (forall j : job, In j l -> j_active j = false -> j_stop j = false) -> pick l = (o, l') ->
    match o with
    | None => l' = l /\ forall j, In j l -> j_active j = true
    | Some ld => exists l1 l2, l = l1 ++ {| j_load := ld; j_active := false; j_stop := false |} :: l2 /\
        l' = l1 ++ {| j_load := ld; j_active := true; j_stop := false |} :: l2
    end.
  Proof.
    revert o l'. induction l as [|j l IH]; intros o l' H; cbn.
    - intros [= <- <-]. split; easy.
    - destruct (j_active j) eqn:Ea.
      + destruct (pick l) as [o1 l1]. intros [= <- <-]. specialize (IH o1 l1 (fun j Hj => H j (or_intror Hj)) eq_refl).
        destruct o1 as [ld|].
        * destruct IH as (a & b & -> & ->). exists (j :: a), b. auto.
        * destruct IH as [-> IH]. split; auto. intros j' [<- | Hj]; auto.
      + pose proof (H j (or_introl eq_refl) Ea) as Es. rewrite Es. intros [= <- <-]. exists [], l. cbn. split; [|reflexivity].
        destruct j; cbn in *; subst; reflexivity.
  Qed.
  Lemma in_remove_all l (j : job) : In j (remove_all l) <->
    j_active j = true /\ j_stop j = true /\ exists b, In {| j_load := j_load j; j_active := true; j_stop := b |} l.
  Proof.
    unfold remove_all. rewrite in_map_iff. split.
    - intros (j' & <- & H). apply filter_In in H as [H Ha]. cbn. split; auto. split; auto. exists (j_stop j').
      destruct j'; cbn in *; subst; auto.
    - intros (Ha & Hs & b & H). eexists. split; [|apply filter_In; split; [exact H|reflexivity]]. destruct j; cbn in *; subst; auto.
  Qed.
  Lemma nodup_remove_all (l : list job) : NoDup (map (fun j => l_id (j_load j)) l) ->
    NoDup (map (fun j => l_id (j_load j)) (remove_all l)).
  Proof.
    intros H. unfold remove_all. rewrite map_map. cbn. induction l as [|j l IH]; cbn; [constructor|].
    inversion_clear H as [|? ? H1 H2]. destruct (j_active j); auto. cbn. constructor; auto.
    intros H. apply H1. apply in_map_iff in H as (j' & <- & H). apply filter_In in H as [H _]. apply in_map_iff. eauto.
  Qed.
  Lemma in_finish id l (j : job) : In j (finish id l) <-> In j l /\ l_id (j_load j) <> id.
  Proof. unfold finish. rewrite filter_In. destruct (Nat.eqb_spec (l_id (j_load j)) id); cbn; intuition congruence. Qed.
  Lemma nodup_finish id (l : list job) : NoDup (map (fun j => l_id (j_load j)) l) ->
    NoDup (map (fun j => l_id (j_load j)) (finish id l)).
  Proof.
    intros H. unfold finish. induction l as [|j l IH]; cbn; [constructor|].
    inversion_clear H as [|? ? H1 H2]. destruct (negb _); auto. cbn. constructor; auto.
    intros H. apply H1. apply in_map_iff in H as (j' & <- & H). apply filter_In in H as [H _]. apply in_map_iff. eauto.
  Qed.
  Lemma nodup_inj (l : list job) j j' : NoDup (map (fun j => l_id (j_load j)) l) -> In j l -> In j' l ->
    l_id (j_load j) = l_id (j_load j') -> j = j'.
  Proof.
    induction l as [|a l IH]; cbn; [easy|]. intros H. inversion_clear H as [|? ? H1 H2].
    intros [-> | Hj] [-> | Hj'] E; auto.
    - destruct H1. rewrite E. apply in_map_iff. eauto.
    - destruct H1. rewrite <- E. apply in_map_iff. eauto.
  Qed.

  (** the load a worker works on; a load whose job has been added but which is not yet pushed; the
      identifier a LoadIR call has taken and not yet given to a job *)
  Definition wload (k : worker request conv) : option (load request) :=
    match k with
    | WIdle => None
    | WBuild l | WLock l _ | WCheck l _ | WPush l _ | WFlag l | WAsync l | WUnlock l | WFinish l => Some l
    end.
  Definition early (k : worker request conv) : option (load request) :=
    match k with
    | WBuild l | WLock l _ | WCheck l _ | WPush l _ => Some l
    | _ => None
    end.
  Definition taken (c : caller request) : option (nat * nat) :=
    match c with
    | CIdle | CLock _ _ | CUnlock _ _ => None
    | CRemove e id _ | CSpec e id _ | CFlag e id _ | CEmit e id _ | CAdd e id _ => Some (e, id)
    end.
  Definition jid (j : job) : nat := l_id (j_load j).
  Definition is_pushed (id : nat) tr : Prop := exists e c, In (Pushed id e c) tr.

  Record pool tr s : Prop := {
    p_nodup : NoDup (map (fun j => l_id (j_load j)) (s_jobs s));
    p_next : forall j, In j (s_jobs s) -> jid j < s_next s;
    p_worker : forall w ld, wload (s_worker s w) = Some ld ->
      exists b, In {| j_load := ld; j_active := true; j_stop := b |} (s_jobs s);
    p_distinct : forall w w' ld ld', wload (s_worker s w) = Some ld -> wload (s_worker s w') = Some ld' ->
      l_id ld = l_id ld' -> w = w';
    p_active : forall j, In j (s_jobs s) -> j_active j = true -> exists w, w < workers /\ wload (s_worker s w) = Some (j_load j);
    p_waiting : forall j, In j (s_jobs s) -> j_active j = false -> j_stop j = false /\ ~ is_pushed (jid j) tr;
    p_early : forall w ld, early (s_worker s w) = Some ld -> ~ is_pushed (l_id ld) tr;
    p_taken : forall t e id, taken (s_caller s t) = Some (e, id) ->
      id < s_next s /\ ~ is_pushed id tr /\ forall j, In j (s_jobs s) -> jid j <> id;
    p_callers : forall t t' e e' id, taken (s_caller s t) = Some (e, id) -> taken (s_caller s t') = Some (e', id) -> t = t';
    p_pushed : forall id, is_pushed id tr -> id < s_next s
  }.

  Lemma pool_new : pool [] load_new.
  Proof. constructor; cbn; try easy; [constructor|]. intros id (? & ? & []). Qed.

  Lemma is_pushed_snoc id tr x : is_pushed id (tr ++ [x]) <-> is_pushed id tr \/ match x with Pushed id' _ _ => id' = id | _ => False end.
  Proof.
    unfold is_pushed. split.
    - intros (e & c & H). apply in_app_iff in H as [H|[-> | []]]; auto. left. eauto.
    - intros [(e & c & H)|H]; [exists e, c; apply in_app_iff; auto|]. destruct x; try easy. subst. eexists _, _. apply in_app_iff. right. now left.
  Qed.
  Lemma early_wload k ld : early k = Some ld -> wload k = Some ld.
  Proof. destruct k; cbn; congruence. Qed.

  (** moves that leave the pool, the workers' loads and the callers' identifiers alone *)
  Lemma pool_same tr s x s' : pool tr s -> s_jobs s' = s_jobs s -> s_next s' = s_next s ->
    (forall w, wload (s_worker s' w) = wload (s_worker s w)) ->
    (forall w ld, early (s_worker s' w) = Some ld -> early (s_worker s w) = Some ld) ->
    (forall t p, taken (s_caller s' t) = Some p -> taken (s_caller s t) = Some p) ->
    (forall id, is_pushed id (tr ++ x) <-> is_pushed id tr) -> pool (tr ++ x) s'.
  Proof.
    intros H Ej En Ew Ee Ec Ep. destruct H. constructor; rewrite ?Ej, ?En; auto.
    - intros w ld. rewrite Ew. apply p_worker0.
    - intros w w' ld ld'. rewrite !Ew. apply p_distinct0.
    - intros j H1 H2. destruct (p_active0 j H1 H2) as (w & H3). exists w. now rewrite Ew.
    - intros j. rewrite Ep. auto.
    - intros w ld. rewrite Ep. eauto.
    - intros t e id H. apply Ec in H. rewrite Ep. eauto.
    - intros t t' e e' id H H'. apply Ec in H. apply Ec in H'. eauto.
    - intros id. rewrite Ep. auto.
  Qed.

  Lemma pool_move tr s m s' x : pool tr s -> load_move s m = Ok (s', x) -> pool (tr ++ x) s'.
  Proof.
    intros H E. moves m E; rewrite ?app_nil_r; auto.
    all: try solve [
      apply (pool_same _ s) || (rewrite <- (app_nil_r tr); apply (pool_same _ s)); auto; cbn; unfold upd;
      try (intros t' p'; destruct (Nat.eqb_spec t' t) as [->|]; rewrite ?Et; cbn; congruence);
      try (intros w'; destruct (Nat.eqb_spec w' w) as [->|]; rewrite ?Ew; cbn; congruence);
      try (intros id'; rewrite ?is_pushed_snoc, ?app_nil_r; tauto)].
    - (* Began *)
      destruct H. constructor; cbn; auto.
      + intros j Hj. specialize (p_next0 j Hj). lia.
      + intros j. rewrite is_pushed_snoc. intros H1 H2. specialize (p_waiting0 j H1 H2). tauto.
      + intros w ld H. rewrite is_pushed_snoc. specialize (p_early0 w ld H). tauto.
      + intros t' e' id'. unfold upd. destruct (Nat.eqb_spec t' t) as [->|].
        * cbn. intros [= <- <-]. rewrite is_pushed_snoc. split; [lia|]. split.
          -- intros [H|[]]. specialize (p_pushed0 _ H). lia.
          -- intros j Hj. specialize (p_next0 j Hj). lia.
        * intros H. specialize (p_taken0 _ _ _ H) as (? & ? & ?). rewrite is_pushed_snoc. split; [lia|]. split; tauto.
      + intros t1 t2 e1 e2 id. unfold upd. destruct (Nat.eqb_spec t1 t) as [->|]; destruct (Nat.eqb_spec t2 t) as [->|]; cbn; auto.
        * intros [= <- <-] H. specialize (p_taken0 _ _ _ H). lia.
        * intros H [= <- <-]. specialize (p_taken0 _ _ _ H). lia.
        * apply p_callers0.
      + intros id. rewrite is_pushed_snoc. intros [H|[]]. specialize (p_pushed0 _ H). lia.
    - (* Cancelled *)
      destruct H. constructor; cbn.
      + now apply nodup_remove_all.
      + intros j Hj. apply in_remove_all in Hj as (_ & _ & b & Hj). apply (p_next0 _ Hj).
      + intros w ld H. destruct (p_worker0 w ld H) as [b Hb]. exists true. apply in_remove_all. cbn. eauto.
      + apply p_distinct0.
      + intros j Hj Ha. apply in_remove_all in Hj as (_ & _ & b & Hj). apply (p_active0 _ Hj eq_refl).
      + intros j Hj Ha. apply in_remove_all in Hj as (H & _). congruence.
      + intros w ld H. rewrite is_pushed_snoc. specialize (p_early0 w ld H). tauto.
      + intros t' e' id'. unfold upd. rewrite is_pushed_snoc. intros H.
        assert (H' : taken (s_caller s t') = Some (e', id')).
        { destruct (Nat.eqb_spec t' t) as [->|]; auto. rewrite Et. exact H. }
        destruct (p_taken0 _ _ _ H') as (? & ? & Hn). split; auto. split; [tauto|].
        intros j Hj. apply in_remove_all in Hj as (_ & _ & b & Hj). apply (Hn _ Hj).
      + intros t1 t2 e1 e2 i. unfold upd. intros H1 H2. apply (p_callers0 t1 t2 e1 e2 i).
        * destruct (Nat.eqb_spec t1 t) as [->|]; auto. rewrite Et. exact H1.
        * destruct (Nat.eqb_spec t2 t) as [->|]; auto. rewrite Et. exact H2.
      + intros i. rewrite is_pushed_snoc. intros [H|[]]. auto.
    - (* Queued *)
      assert (HT : taken (s_caller s t) = Some (e, id)) by (rewrite Et; reflexivity).
      destruct H. destruct (p_taken0 _ _ _ HT) as (Hid & Hp & Hn). constructor; cbn.
      + rewrite map_app. cbn. apply Permutation_NoDup with (l := id :: map (fun j : job => l_id (j_load j)) (s_jobs s)).
        * apply Permutation_cons_append.
        * constructor; auto. intros Hi. apply in_map_iff in Hi as (j & Hj & Hi). exact (Hn j Hi Hj).
      + intros j Hj. apply in_app_iff in Hj as [Hj|[<- | []]]; auto.
      + intros w ld H. destruct (p_worker0 w ld H) as [b Hb]. exists b. apply in_app_iff. auto.
      + apply p_distinct0.
      + intros j Hj Ha. apply in_app_iff in Hj as [Hj|[<- | []]]; [auto|discriminate].
      + intros j Hj Ha. rewrite is_pushed_snoc. apply in_app_iff in Hj as [Hj|[<- | []]].
        * specialize (p_waiting0 j Hj Ha). tauto.
        * cbn. split; auto. tauto.
      + intros w ld H. rewrite is_pushed_snoc. specialize (p_early0 w ld H). tauto.
      + intros t' e' id'. unfold upd. destruct (Nat.eqb_spec t' t) as [->|Ht]; [discriminate|].
        intros H. destruct (p_taken0 _ _ _ H) as (? & ? & Hn'). rewrite is_pushed_snoc. split; auto. split; [tauto|].
        intros j Hj. apply in_app_iff in Hj as [Hj|[<- | []]]; auto. cbn. intros <-. apply Ht. eapply p_callers0; eauto.
      + intros t1 t2 e1 e2 i. unfold upd. destruct (Nat.eqb_spec t1 t) as [->|]; [discriminate|].
        destruct (Nat.eqb_spec t2 t) as [->|]; [discriminate|]. apply p_callers0.
      + intros i. rewrite is_pushed_snoc. intros [H|[]]. auto.
    - (* a job is picked *)
      destruct H. apply pick_spec in Ep as (l1 & l2 & Ej & ->); [|intros j H1 H2; exact (proj1 (p_waiting0 j H1 H2))].
      assert (Hold : forall j, In j (l1 ++ {| j_load := ld; j_active := true; j_stop := false |} :: l2) ->
               j = {| j_load := ld; j_active := true; j_stop := false |} \/ (In j (s_jobs s) /\ j <> {| j_load := ld; j_active := false; j_stop := false |})).
      { intros j Hj. apply in_elt_inv in Hj as [Hj|Hj]; auto. right. rewrite Ej. split; [apply in_app_iff in Hj as [?|?]; apply in_app_iff; [left|right; right]; auto|].
        intros ->. rewrite Ej, map_app in p_nodup0. cbn in p_nodup0. apply NoDup_remove_2 in p_nodup0. apply p_nodup0.
        rewrite <- map_app. exact (in_map (fun j : job => l_id (j_load j)) _ _ Hj). }
      assert (Hld : In {| j_load := ld; j_active := false; j_stop := false |} (s_jobs s)) by (rewrite Ej; apply in_elt).
      assert (Hfree : forall w ld', wload (s_worker s w) = Some ld' -> l_id ld' <> l_id ld).
      { intros w' ld' H Hid. destruct (p_worker0 _ _ H) as [b Hb].
        pose proof (nodup_inj _ _ _ p_nodup0 Hb Hld Hid) as [=]. }
      constructor; cbn; auto.
      + rewrite Ej, map_app in p_nodup0. rewrite map_app. exact p_nodup0.
      + intros j Hj. destruct (Hold j Hj) as [->|[H _]]; [apply (p_next0 _ Hld)|auto].
      + intros w' ld'. unfold upd. destruct (Nat.eqb_spec w' w) as [->|].
        * cbn. intros [= <-]. exists false. apply in_elt.
        * intros H. destruct (p_worker0 _ _ H) as [b Hb]. exists b. rewrite Ej in Hb. apply in_app_iff in Hb as [Hb|[Hb|Hb]]; [|discriminate|]; apply in_app_iff; cbn; auto.
      + intros w1 w2 ld1 ld2. unfold upd. destruct (Nat.eqb_spec w1 w) as [->|]; destruct (Nat.eqb_spec w2 w) as [->|]; cbn; auto.
        * intros [= <-] H Hid. now destruct (Hfree _ _ H).
        * intros H [= <-] Hid. now destruct (Hfree _ _ H).
        * apply p_distinct0.
      + intros j Hj Ha. destruct (Hold j Hj) as [->|[H _]].
        * exists w. apply Nat.ltb_lt in Hw. cbn. rewrite upd_same. auto.
        * destruct (p_active0 j H Ha) as (w' & Hw' & H'). exists w'. split; auto. rewrite upd_other; auto. intros ->. rewrite Ew in H'. discriminate.
      + intros j Hj Ha. destruct (Hold j Hj) as [->|[H _]]; [discriminate|auto].
      + intros w' ld'. unfold upd. destruct (Nat.eqb_spec w' w) as [->|]; [|apply p_early0].
        cbn. intros [= <-]. apply (p_waiting0 _ Hld eq_refl).
      + intros t' e' id' H. destruct (p_taken0 _ _ _ H) as (? & ? & Hn). split; auto. split; auto.
        intros j Hj. destruct (Hold j Hj) as [->|[H' _]]; [apply (Hn _ Hld)|auto].
    - (* no job is waiting *)
      destruct (pick_spec _ _ _ (fun j H1 H2 => proj1 (p_waiting _ _ H j H1 H2)) Ep) as [-> _].
      rewrite <- (app_nil_r tr). apply (pool_same _ s); auto; cbn; unfold upd.
      + intros w'. destruct (Nat.eqb_spec w' w) as [->|]; rewrite ?Ew; auto.
      + intros w' ld. destruct (Nat.eqb_spec w' w) as [->|]; rewrite ?Ew; auto.
      + intros. rewrite app_nil_r. tauto.
    - (* Pushed *)
      assert (HE : early (s_worker s w) = Some ld) by now rewrite Ew.
      assert (HL : wload (s_worker s w) = Some ld) by now rewrite Ew.
      destruct H. destruct (p_worker0 _ _ HL) as [b0 Hb0].
      constructor; cbn; auto.
      + intros w' ld'. unfold upd. destruct (Nat.eqb_spec w' w) as [->|]; [|apply p_worker0]. cbn. intros [= <-]. eauto.
      + intros w1 w2 ld1 ld2 H1 H2. apply (p_distinct0 w1 w2 ld1 ld2).
        * unfold upd in H1. destruct (Nat.eqb_spec w1 w) as [->|]; auto. rewrite Ew. exact H1.
        * unfold upd in H2. destruct (Nat.eqb_spec w2 w) as [->|]; auto. rewrite Ew. exact H2.
      + intros j Hj Ha. destruct (p_active0 j Hj Ha) as (w' & Hw' & H'). exists w'. split; auto. unfold upd. destruct (Nat.eqb_spec w' w) as [->|]; auto. rewrite Ew in H'. exact H'.
      + intros j Hj Ha. rewrite is_pushed_snoc. destruct (p_waiting0 j Hj Ha) as [? Hn]. split; auto. intros [?|Hi]; [tauto|].
        pose proof (nodup_inj _ _ _ p_nodup0 Hb0 Hj Hi) as <-. discriminate.
      + intros w' ld'. unfold upd. destruct (Nat.eqb_spec w' w) as [->|]; [discriminate|]. intros H. rewrite is_pushed_snoc.
        intros [Hp|Hi]; [now apply (p_early0 _ _ H)|]. apply n. apply (p_distinct0 w' w ld' ld); auto. now apply early_wload.
      + intros t' e' id' H. destruct (p_taken0 _ _ _ H) as (? & ? & Hn). split; auto. split; auto.
        rewrite is_pushed_snoc. intros [?|Hi]; [tauto|]. now apply (Hn _ Hb0).
      + intros i. rewrite is_pushed_snoc. intros [Hp|Hi]; auto. subst i. apply (p_next0 _ Hb0).
    - (* a job is removed *)
      assert (HL : wload (s_worker s w) = Some ld) by now rewrite Ew.
      destruct H. constructor; cbn; auto.
      + now apply nodup_finish.
      + intros j Hj. apply in_finish in Hj as [Hj _]. auto.
      + intros w' ld'. unfold upd. destruct (Nat.eqb_spec w' w) as [->|]; [discriminate|]. intros H. destruct (p_worker0 _ _ H) as [b Hb].
        exists b. apply in_finish. split; auto. cbn. intros Hi. apply n. eapply p_distinct0; eauto.
      + intros w1 w2 ld1 ld2. unfold upd. destruct (Nat.eqb_spec w1 w) as [->|]; [discriminate|]. destruct (Nat.eqb_spec w2 w) as [->|]; [discriminate|]. apply p_distinct0.
      + intros j Hj Ha. apply in_finish in Hj as [Hj Hi]. destruct (p_active0 j Hj Ha) as (w' & Hw' & H'). exists w'. split; auto.
        rewrite upd_other; auto. intros ->. rewrite HL in H'. injection H' as H'. now rewrite H' in Hi.
      + intros j Hj Ha. apply in_finish in Hj as [Hj _]. auto.
      + intros w' ld'. unfold upd. destruct (Nat.eqb_spec w' w) as [->|]; [discriminate|]. apply p_early0.
      + intros t' e' id' H. destruct (p_taken0 _ _ _ H) as (? & ? & Hn). split; auto. split; auto.
        intros j Hj. apply in_finish in Hj as [Hj _]. auto.
  Qed.

  (** ** The newest load *)
  (** after removeAllJobs, before addJob *)
  Definition swept (c : caller request) : option nat :=
    match c with CSpec e _ _ | CFlag e _ _ | CEmit e _ _ | CAdd e _ _ => Some e | _ => None end.
  Definition sweeping (c : caller request) : option nat :=
    match c with CRemove e _ _ => Some e | _ => None end.
  Definition crit_id (c : caller request) : option (nat * nat) :=
    match c with
    | CIdle | CLock _ _ => None
    | CRemove e id _ | CSpec e id _ | CFlag e id _ | CEmit e id _ | CAdd e id _ | CUnlock e id => Some (e, id)
    end.
  Definition pushing (k : worker request conv) : option (load request) :=
    match k with WPush l _ => Some l | _ => None end.
  Record newest_load tr s : Prop := {
    n_running : forall j, In j (s_jobs s) -> j_stop j = false ->
      last_began (l_engine (j_load j)) tr = Some (jid j) \/ exists t, sweeping (s_caller s t) = Some (l_engine (j_load j));
    n_swept : forall t e, swept (s_caller s t) = Some e -> forall j, In j (s_jobs s) -> l_engine (j_load j) = e -> j_stop j = true;
    n_caller : forall t e id, crit_id (s_caller s t) = Some (e, id) -> last_began e tr = Some id;
    n_pushing : forall w ld, pushing (s_worker s w) = Some ld -> last_began (l_engine ld) tr = Some (l_id ld);
    n_order : forall tr1 id e c tr2, tr = tr1 ++ Pushed id e c :: tr2 -> last_began e tr1 = Some id /\ ~ is_pushed id tr1
  }.
  Lemma newest_new : newest_load [] load_new.
  Proof. constructor; cbn; try easy. intros [|? ?]; discriminate. Qed.
  Lemma order_snoc tr x : (forall tr1 id e c tr2, tr = tr1 ++ Pushed id e c :: tr2 -> last_began e tr1 = Some id /\ ~ is_pushed id tr1) ->
    (forall id e c, x = Pushed id e c -> last_began e tr = Some id /\ ~ is_pushed id tr) ->
    forall tr1 id e c tr2, tr ++ [x] = tr1 ++ Pushed id e c :: tr2 -> last_began e tr1 = Some id /\ ~ is_pushed id tr1.
  Proof.
    intros H Hx tr1 id e c tr2 E. apply snoc_split in E as [(-> & -> & E)|(l3 & -> & ->)]; eauto.
  Qed.
  (** moves that leave the jobs alone *)
  Lemma newest_jobs tr s x s' : newest_load tr s ->
    (forall j, In j (s_jobs s') -> exists j', In j' (s_jobs s) /\ j_load j' = j_load j /\ j_stop j' = j_stop j) ->
    (forall t e, sweeping (s_caller s t) = Some e -> sweeping (s_caller s' t) = Some e) ->
    (forall t e, swept (s_caller s' t) = Some e -> swept (s_caller s t) = Some e) ->
    (forall t p, crit_id (s_caller s' t) = Some p -> crit_id (s_caller s t) = Some p) ->
    (forall w ld, pushing (s_worker s' w) = Some ld -> pushing (s_worker s w) = Some ld) ->
    (forall e, last_began e (tr ++ x) = last_began e tr) ->
    (forall tr1 id e c tr2, tr ++ x = tr1 ++ Pushed id e c :: tr2 -> last_began e tr1 = Some id /\ ~ is_pushed id tr1) ->
    newest_load (tr ++ x) s'.
  Proof.
    intros H Ej E1 E2 E3 E4 E5 E6. destruct H. constructor; auto.
    - intros j Hj Hs. rewrite E5. destruct (Ej j Hj) as (j' & Hj' & El & Es). unfold jid. rewrite <- El. rewrite <- Es in Hs.
      destruct (n_running0 j' Hj' Hs) as [?|[t Ht]]; eauto.
    - intros t e H j Hj He. destruct (Ej j Hj) as (j' & Hj' & El & Es). rewrite <- Es. rewrite <- El in He. eauto.
    - intros t e id H. rewrite E5. eauto.
    - intros w ld H. rewrite E5. eauto.
  Qed.
  Lemma newest_same tr s x s' : newest_load tr s -> s_jobs s' = s_jobs s ->
    (forall t e, sweeping (s_caller s t) = Some e -> sweeping (s_caller s' t) = Some e) ->
    (forall t e, swept (s_caller s' t) = Some e -> swept (s_caller s t) = Some e) ->
    (forall t p, crit_id (s_caller s' t) = Some p -> crit_id (s_caller s t) = Some p) ->
    (forall w ld, pushing (s_worker s' w) = Some ld -> pushing (s_worker s w) = Some ld) ->
    (forall e, last_began e (tr ++ x) = last_began e tr) ->
    (forall tr1 id e c tr2, tr ++ x = tr1 ++ Pushed id e c :: tr2 -> last_began e tr1 = Some id /\ ~ is_pushed id tr1) ->
    newest_load (tr ++ x) s'.
  Proof.
    intros H Ej. apply newest_jobs; auto. intros j Hj. rewrite Ej in Hj. eauto.
  Qed.

  Lemma newest_move tr s m s' x : locks s -> pool tr s -> newest_load tr s -> load_move s m = Ok (s', x) -> newest_load (tr ++ x) s'.
  Proof.
    intros HL HP H E. moves m E; rewrite ?app_nil_r; auto.
    all: try solve [
      apply (newest_same _ s) || (rewrite <- (app_nil_r tr); apply (newest_same _ s)); auto; cbn; unfold upd;
      try (intros t' p'; destruct (Nat.eqb_spec t' t) as [->|]; rewrite ?Et; cbn; congruence);
      try (intros w'; destruct (Nat.eqb_spec w' w) as [->|]; rewrite ?Ew; cbn; congruence);
      try (intros e'; rewrite ?last_began_snoc, ?app_nil_r; reflexivity);
      rewrite ?app_nil_r; try (apply (n_order _ _ H)); try (apply order_snoc; [apply (n_order _ _ H)|congruence])].
    - (* Began *)
      assert (HF : forall o, ~ holds s o e) by (intros o Ho; apply HL in Ho; congruence).
      destruct H. constructor; cbn.
      + intros j Hj Hs. rewrite last_began_snoc. destruct (Nat.eqb_spec e (l_engine (j_load j))) as [->|].
        * right. exists t. now rewrite upd_same.
        * destruct (n_running0 j Hj Hs) as [?|[t' Ht']]; auto. right. exists t'. rewrite upd_other; auto. intros ->. rewrite Et in Ht'. discriminate.
      + intros t' e'. unfold upd. destruct (Nat.eqb_spec t' t) as [->|]; [discriminate|]. apply n_swept0.
      + intros t' e' id'. rewrite last_began_snoc. unfold upd. destruct (Nat.eqb_spec t' t) as [->|].
        * cbn. intros [= <- <-]. now rewrite Nat.eqb_refl.
        * intros Hc. destruct (Nat.eqb_spec e e') as [<-|]; [|eauto]. destruct (HF (ByCaller t')). cbn. destruct (s_caller s t'); cbn in *; congruence.
      + intros w ld Hc. rewrite last_began_snoc. destruct (Nat.eqb_spec e (l_engine ld)) as [->|]; [|eauto].
        destruct (HF (ByWorker w)). cbn. destruct (s_worker s w); cbn in *; congruence.
      + apply order_snoc; [auto|discriminate].
    - (* Cancelled *)
      destruct H. constructor; cbn.
      + intros j Hj. apply in_remove_all in Hj as (_ & Hs & _). congruence.
      + intros t' e' _ j Hj. now apply in_remove_all in Hj as (_ & Hs & _).
      + intros t' e' id' Hc. rewrite last_began_snoc. apply (n_caller0 t'). unfold upd in Hc. destruct (Nat.eqb_spec t' t) as [->|]; auto. now rewrite Et.
      + intros w ld Hc. rewrite last_began_snoc. eauto.
      + apply order_snoc; [auto|discriminate].
    - (* Queued *)
      destruct H. constructor; cbn.
      + intros j Hj Hs. rewrite last_began_snoc. apply in_app_iff in Hj as [Hj|[<- | []]].
        * destruct (n_running0 j Hj Hs) as [?|[t' Ht']]; auto. right. exists t'. rewrite upd_other; auto. intros ->. rewrite Et in Ht'. discriminate.
        * left. cbn. apply (n_caller0 t). now rewrite Et.
      + intros t' e'. unfold upd. destruct (Nat.eqb_spec t' t) as [->|Hn]; [discriminate|]. intros Hc j Hj He. apply in_app_iff in Hj as [Hj|[<- | []]]; [eauto|].
        destruct Hn. cbn in He. subst e'. assert (HO : ByCaller t' = ByCaller t); [|now injection HO]. apply (locks_excl s _ _ e HL).
        * cbn. destruct (s_caller s t'); cbn in *; congruence.
        * cbn. now rewrite Et.
      + intros t' e' id' Hc. rewrite last_began_snoc. apply (n_caller0 t'). unfold upd in Hc. destruct (Nat.eqb_spec t' t) as [->|]; auto. now rewrite Et.
      + intros w ld Hc. rewrite last_began_snoc. eauto.
      + apply order_snoc; [auto|discriminate].
    - (* a job is picked *)
      apply pick_spec in Ep as (l1 & l2 & Ej & ->); [|intros j H1 H2; exact (proj1 (p_waiting _ _ HP j H1 H2))].
      rewrite <- (app_nil_r tr). apply (newest_jobs _ s); auto; cbn.
      + intros j Hj. rewrite Ej. apply in_app_iff in Hj as [Hj|[<- |Hj]].
        * exists j. split; auto. apply in_app_iff. auto.
        * eexists. split; [apply in_elt|]. auto.
        * exists j. split; auto. apply in_app_iff. cbn. auto.
      + intros w' ld'. unfold upd. destruct (Nat.eqb_spec w' w) as [->|]; [discriminate|auto].
      + intros. now rewrite app_nil_r.
      + rewrite app_nil_r. apply (n_order _ _ H).
    - (* no job is waiting *)
      destruct (pick_spec _ _ _ (fun j H1 H2 => proj1 (p_waiting _ _ HP j H1 H2)) Ep) as [-> _].
      rewrite <- (app_nil_r tr). apply (newest_jobs _ s); auto; cbn.
      + intros j Hj. eauto.
      + intros w' ld'. unfold upd. destruct (Nat.eqb_spec w' w) as [->|]; [discriminate|auto].
      + intros. now rewrite app_nil_r.
      + rewrite app_nil_r. apply (n_order _ _ H).
    - (* the job may push *)
      assert (HW : holds s (ByWorker w) (l_engine ld)) by (cbn; now rewrite Ew).
      destruct H. constructor; cbn; auto.
      intros w' ld'. unfold upd. destruct (Nat.eqb_spec w' w) as [->|]; [|apply n_pushing0]. cbn. intros [= <-].
      destruct (p_worker _ _ HP w ld) as [b Hb]; [now rewrite Ew|].
      assert (b = false) as ->.
      { destruct b; auto. enough (should_exit (l_id ld) (s_jobs s) = true) by congruence. apply existsb_exists. eexists. split; [exact Hb|]. cbn. now rewrite Nat.eqb_refl. }
      destruct (n_running0 _ Hb eq_refl) as [?|[t Ht]]; auto. cbn in Ht.
      assert (HO : ByCaller t = ByWorker w); [|discriminate]. apply (locks_excl s _ _ (l_engine ld) HL); auto. cbn. destruct (s_caller s t); cbn in *; congruence.
    - (* Pushed *)
      assert (HE : early (s_worker s w) = Some ld) by now rewrite Ew.
      assert (HL' : pushing (s_worker s w) = Some ld) by now rewrite Ew.
      apply (newest_jobs _ s); auto; cbn.
      + intros j Hj. eauto.
      + intros w' ld'. unfold upd. destruct (Nat.eqb_spec w' w) as [->|]; [discriminate|auto].
      + intros. now rewrite last_began_snoc.
      + apply order_snoc; [apply (n_order _ _ H)|]. intros id e c' [= <- <- <-]. split; [apply (n_pushing _ _ H w _ HL')|apply (p_early _ _ HP w _ HE)].
    - (* a job is removed *)
      rewrite <- (app_nil_r tr). apply (newest_jobs _ s); auto; cbn.
      + intros j Hj. apply in_finish in Hj as [Hj _]. eauto.
      + intros w' ld'. unfold upd. destruct (Nat.eqb_spec w' w) as [->|]; [discriminate|auto].
      + intros. now rewrite app_nil_r.
      + rewrite app_nil_r. apply (n_order _ _ H).
  Qed.

  (** ** All schedules *)
  Definition inv tr s : Prop := locks s /\ pool tr s /\ newest_load tr s.
  Lemma inv_new : inv [] load_new.
  Proof. split; [apply locks_new|]. split; [apply pool_new|apply newest_new]. Qed.
  Lemma inv_move tr s m s' x : inv tr s -> load_move s m = Ok (s', x) -> inv (tr ++ x) s'.
  Proof.
    intros (H1 & H2 & H3) E. split; [eapply locks_move; eauto|]. split; [eapply pool_move; eauto|eapply newest_move; eauto].
  Qed.
  Lemma inv_run ms tr s s' x : inv tr s -> load_run s ms = Ok (s', x) -> inv (tr ++ x) s'.
  Proof. apply (run_ind inv). apply inv_move. Qed.
  Lemma inv_reached ms s tr : load_run load_new ms = Ok (s, tr) -> inv tr s.
  Proof. intros E. apply (inv_run ms [] _ _ _ inv_new E). Qed.
End Proof.

(** * Lemmas about loading: nothing fails, everything comes to an end *)
From Verif.Model Require Import Base ConvolutionEngine Loader.
From Verif.Spec Require Import Loading.
From Verif.Proofs Require Import LoaderProof LoaderFate LoaderMore.

Section Live.
  Context {request conv : Type}.
  Variable build : request -> process_spec -> res conv.
  Variable workers : nat.
  Notation trace := (list (event request conv)).
  Notation state := (state request conv).
  Notation job := (job request).
  Notation load_move := (@load_move request conv build workers).
  Notation load_run := (@load_run request conv build workers).
  Notation all := (@all request conv build workers).
  Implicit Types (tr : trace) (s : state).
  Ltac moves m E := load_moves build workers m E.

  (** ** Nothing fails *)
  Variable valid : process_spec -> Prop.
  Notation permitted := (@permitted request conv build valid).
  Notation careful := (@careful request conv build workers valid).
  Definition call_request (c : caller request) : option request :=
    match c with
    | CIdle | CUnlock _ _ => None
    | CLock _ r | CRemove _ _ r | CSpec _ _ r | CFlag _ _ r | CEmit _ _ r | CAdd _ _ r => Some r
    end.
  Record secure s : Prop := {
    u_caller : forall t e, call_engine (s_caller s t) = Some e -> n_alive (s_engine s e) = true;
    u_job : forall j, In j (s_jobs s) -> n_alive (s_engine s (l_engine (j_load j))) = true;
    u_message : forall e, In e (s_messages s) -> n_alive (s_engine s e) = true;
    u_request : forall t r p, call_request (s_caller s t) = Some r -> valid p -> exists c, build r p = Ok c;
    u_spec : forall e p, n_spec (s_engine s e) = Some p -> valid p;
    u_load : forall j, In j (s_jobs s) -> exists c, build (l_request (j_load j)) (l_spec (j_load j)) = Ok c
  }.
  Lemma secure_new : secure load_new.
  Proof. constructor; cbn; easy. Qed.

  Lemma worker_secure tr s w ld : all tr s -> secure s -> wload (s_worker s w) = Some ld ->
    n_alive (s_engine s (l_engine ld)) = true /\ exists c, build (l_request ld) (l_spec ld) = Ok c.
  Proof.
    intros ((_ & HP & _) & _) HS H. destruct (p_worker _ _ _ HP w ld H) as [b Hb].
    split; [apply (u_job _ HS _ Hb)|apply (u_load _ HS _ Hb)].
  Qed.
  Lemma secure_ok tr s m : all tr s -> secure s -> permitted s m -> exists s' x, load_move s m = Ok (s', x).
  Proof.
    intros HA HS (Hu & Hg & Hp & Hf). pose proof HA as ((HL & HP & HN) & _ & HF & _).
    destruct m as [t e r|t|w|e p|e|e| |e]; cbn [Loader.load_move]; unfold engine_at.
    - destruct (s_caller s t); eauto. rewrite (Hu e eq_refl). cbn. eauto.
    - unfold caller_step, engine_at. pose proof (u_caller _ HS t) as H1. pose proof (f_calls _ _ HF t) as H2.
      destruct (s_caller s t) as [|e r|e id r|e id r|e id r|e id r|e id r|e id] eqn:Et; cbn in H1, H2; eauto; rewrite (H1 e eq_refl); cbn [bind]; eauto.
      + destruct (n_lock _); eauto.
      + destruct (n_spec (s_engine s e)) eqn:Es; [cbn; eauto|]. now destruct (H2 e eq_refl).
    - destruct (w <? workers); eauto. unfold worker_step, engine_at. pose proof (worker_secure tr s w) as H1.
      destruct (s_worker s w) as [|ld|ld c|ld c|ld c|ld|ld|ld|ld] eqn:Ew; cbn [wload] in H1;
        try (destruct (H1 ld HA HS eq_refl) as [Ha [c0 Hgd]]; rewrite ?Ha; cbn [bind]); eauto.
      + destruct (pick (s_jobs s)) as [[?|] ?]; eauto.
      + rewrite Hgd. cbn. eauto.
      + destruct (n_lock _); eauto.
    - rewrite (Hu e eq_refl). cbn. destruct (n_preparing _); eauto.
    - rewrite (Hu e eq_refl). cbn. destruct (n_preparing _); eauto.
    - rewrite (Hu e eq_refl). cbn. destruct (n_preparing _); eauto.
    - pose proof (u_message _ HS) as H1. destruct (s_messages s) as [|e l] eqn:Em; eauto. rewrite (H1 e (or_introl eq_refl)). cbn. eauto.
    - rewrite (Hu e eq_refl). cbn [bind]. destruct (Hf e eq_refl) as (H1 & H2 & H3).
      destruct (n_lock (s_engine s e)) as [[t|w]|] eqn:El; eauto; apply HL in El; cbn in El.
      + destruct (H1 t). destruct (s_caller s t); cbn in *; congruence.
      + exfalso. assert (exists ld, wload (s_worker s w) = Some ld /\ l_engine ld = e) as (ld & Hl & He) by (destruct (s_worker s w); cbn in *; try discriminate; injection El as <-; eauto).
        destruct (p_worker _ _ _ HP w ld Hl) as [b Hb]. now apply (H2 _ Hb).
  Qed.
  Lemma secure_move tr s m s' x : all tr s -> secure s -> permitted s m -> load_move s m = Ok (s', x) -> secure s'.
  Proof.
    intros ((HL & HP & HN) & _) HS (Hu & Hg & Hp & Hf) E.
    assert (Ha : forall e, n_alive (s_engine s e) = true -> n_alive (s_engine s' e) = true \/ m = DestroyEngine e).
    { intros e0 H0. moves m E; auto; cbn; unfold upd; try (destruct (Nat.eqb_spec e0 e) as [->|]; auto); try (destruct (Nat.eqb_spec e0 (l_engine ld)) as [->|]; auto). }
    assert (Hs : forall e p, n_spec (s_engine s' e) = Some p -> n_spec (s_engine s e) = Some p \/ exists e, m = CallPrepare e p).
    { intros e0 p0. moves m E; auto; cbn; unfold upd; try (destruct (Nat.eqb_spec e0 e) as [->|]; auto); try (destruct (Nat.eqb_spec e0 (l_engine ld)) as [->|]; auto).
      cbn. intros [= <-]. eauto. }
    assert (Hj : forall j, In j (s_jobs s') -> (exists j', In j' (s_jobs s) /\ j_load j' = j_load j) \/
       exists t e id r p, s_caller s t = CAdd e id r /\ n_spec (s_engine s e) = Some p /\ j_load j = {| l_id := id; l_engine := e; l_request := r; l_spec := p |}).
    { intros j Hj. moves m E; eauto; cbn in Hj.
      - apply in_remove_all in Hj as (_ & _ & b & Hj). left. eexists. split; [exact Hj|]. reflexivity.
      - apply in_app_iff in Hj as [Hj|[<- | []]]; [eauto|]. right. exists t, e, id, r, p. cbn. auto.
      - apply pick_spec in Ep as (l1 & l2 & Ej & ->); [|intros j' H1 H2; exact (proj1 (p_waiting _ _ _ HP j' H1 H2))].
        left. rewrite Ej. apply in_app_iff in Hj as [Hj|[<- |Hj]].
        + exists j. split; auto. apply in_app_iff. auto.
        + eexists. split; [apply in_elt|]. reflexivity.
        + exists j. split; auto. apply in_app_iff. cbn. auto.
      - destruct (pick_spec _ _ _ (fun j H1 H2 => proj1 (p_waiting _ _ _ HP j H1 H2)) Ep) as [-> _]. eauto.
      - apply in_finish in Hj as [Hj _]. eauto. }
    assert (Hc : forall t e, call_engine (s_caller s' t) = Some e -> call_engine (s_caller s t) = Some e \/ uses e m).
    { intros t0 e0. moves m E; auto; cbn; unfold upd; destruct (Nat.eqb_spec t0 t) as [->|]; auto; rewrite ?Et; cbn; auto; try discriminate. intros [= <-]. auto. }
    assert (Hr : forall t r, call_request (s_caller s' t) = Some r -> call_request (s_caller s t) = Some r \/ exists t e, m = CallLoadIR t e r).
    { intros t0 r0. moves m E; auto; cbn; unfold upd; destruct (Nat.eqb_spec t0 t) as [->|]; auto; rewrite ?Et; cbn; auto; try discriminate. intros [= <-]. eauto. }
    assert (Hm : forall e, In e (s_messages s') -> In e (s_messages s) \/ exists w ld, wload (s_worker s w) = Some ld /\ l_engine ld = e).
    { intros e0. moves m E; auto; cbn; intros Hi.
      - apply in_app_iff in Hi as [Hi|[<- | []]]; auto. right. exists w, ld. now rewrite Ew.
      - left. rewrite Em. now right. }
    destruct HS. constructor.
    - intros t e H. assert (Hal : n_alive (s_engine s e) = true) by (destruct (Hc t e H) as [?|?]; eauto).
      destruct (Ha e Hal) as [?| ->]; auto. destruct (Hf e eq_refl) as (H1 & _). destruct (Hc t e H) as [H2|H2]; [now destruct (H1 t)|].
      (* the call that destroys the engine is no LoadIR call *)
      exfalso. cbn [Loader.load_move] in E. unfold engine_at in E. rewrite Hal in E. cbn [bind] in E. destruct (n_lock (s_engine s e)); [discriminate|].
      injection E as <- <-. cbn in H. now destruct (H1 t).
    - intros j H. destruct (Hj j H) as [(j' & H1 & H2)|(t & e & id & r & p & H1 & H2 & H3)].
      + rewrite <- H2. destruct (Ha _ (u_job0 _ H1)) as [?|Hd]; auto. destruct (Hf _ Hd) as (_ & Hx & _). now destruct (Hx _ H1).
      + rewrite H3. cbn. assert (Hce : call_engine (s_caller s t) = Some e) by now rewrite H1.
        destruct (Ha e (u_caller0 t e Hce)) as [?|Hd]; auto. destruct (Hf _ Hd) as (Hx & _). now destruct (Hx t).
    - intros e H. destruct (Hm e H) as [H1|(w & ld & H1 & H2)].
      + destruct (Ha e (u_message0 e H1)) as [?|Hd]; auto. destruct (Hf _ Hd) as (_ & _ & Hx). easy.
      + destruct (p_worker _ _ _ HP w ld H1) as [b Hb]. subst e. destruct (Ha _ (u_job0 _ Hb)) as [?|Hd]; auto.
        destruct (Hf _ Hd) as (_ & Hx & _). now destruct (Hx _ Hb).
    - intros t r p H Hv. destruct (Hr t r H) as [?|(t' & e & ->)]; [eauto|]. apply (Hg t' e r eq_refl p Hv).
    - intros e p H. destruct (Hs e p H) as [?|[e' ->]]; [eauto|]. apply (Hp e' p eq_refl).
    - intros j H. destruct (Hj j H) as [(j' & H1 & H2)|(t & e & id & r & p & H1 & H2 & H3)].
      + rewrite <- H2. auto.
      + rewrite H3. cbn. apply (u_request0 t); [now rewrite H1|]. eauto.
  Qed.
  Lemma careful_run ms tr s : all tr s -> secure s -> careful s ms ->
    exists s' x, load_run s ms = Ok (s', x) /\ secure s'.
  Proof.
    revert tr s. induction ms as [|m ms IH]; intros tr s HA HS H; cbn in *.
    - exists s, []. auto.
    - destruct H as [H1 H2]. destruct (secure_ok tr s m HA HS H1) as (s1 & x1 & E). rewrite E in *. cbn [bind].
      destruct (IH (tr ++ x1) s1) as (s2 & x2 & E2 & H3); [eapply all_move; eauto|eapply secure_move; eauto|auto|].
      rewrite E2. cbn. eauto.
  Qed.

  (** ** Everything comes to an end *)
  Definition rank_c (c : caller request) : nat :=
    match c with
    | CIdle => 0 | CUnlock _ _ => 1 | CAdd _ _ _ => 12 | CEmit _ _ _ => 13 | CFlag _ _ _ => 14 | CSpec _ _ _ => 15
    | CRemove _ _ _ => 16 | CLock _ _ => 17
    end.
  Definition rank_w (k : worker request conv) : nat :=
    match k with
    | WIdle => 0 | WFinish _ => 1 | WUnlock _ => 2 | WAsync _ => 4 | WFlag _ => 5 | WPush _ _ => 6 | WCheck _ _ => 7
    | WLock _ _ => 8 | WBuild _ => 9
    end.
  Definition sum_to {T} (n : nat) (rank : T -> nat) (f : nat -> T) : nat := list_sum (map (fun i => rank (f i)) (seq 0 n)).
  Definition waiting (l : list job) : nat := length (filter (fun j => negb (j_active j)) l).
  Variable callers : nat.
  Definition effort s : nat :=
    sum_to callers rank_c (s_caller s) + sum_to workers rank_w (s_worker s) + 10 * waiting (s_jobs s) + length (s_messages s).

  Lemma sum_upd {T} n (rank : T -> nat) f i x : i < n -> sum_to n rank (upd f i x) + rank (f i) = sum_to n rank f + rank x.
  Proof.
    intros Hi. unfold sum_to. replace n with (i + S (n - S i)) by lia. rewrite seq_app, !map_app, !list_sum_app. cbn [seq map plus].
    assert (H : forall a k, i < a \/ a + k <= i -> map (fun j => rank (upd f i x j)) (seq a k) = map (fun j => rank (f j)) (seq a k)).
    { intros a k Ha. apply map_ext_in. intros j Hj. apply in_seq in Hj. rewrite upd_other; auto. lia. }
    rewrite H by lia. rewrite (H (S i)) by lia. rewrite upd_same. cbn [list_sum fold_right]. unfold list_sum. lia.
  Qed.

  (** moves of the threads themselves that can do something *)
  Definition enabled s (m : move request) : bool :=
    match m with
    | StepCaller t => match s_caller s t with
                      | CIdle => false
                      | CLock e _ => match n_lock (s_engine s e) with None => true | Some _ => false end
                      | _ => true
                      end
    | StepWorker w => (w <? workers) && match s_worker s w with
                      | WIdle => negb (waiting (s_jobs s) =? 0)
                      | WLock l _ => match n_lock (s_engine s (l_engine l)) with None => true | Some _ => false end
                      | _ => true
                      end
    | Message => negb (length (s_messages s) =? 0)
    | _ => false
    end.
  (** states that cannot be told apart *)
  Definition same s s' : Prop :=
    (forall t, s_caller s' t = s_caller s t) /\ (forall w, s_worker s' w = s_worker s w) /\ (forall e, s_engine s' e = s_engine s e) /\
    s_jobs s' = s_jobs s /\ s_messages s' = s_messages s.
  Lemma same_enabled s s' m : same s s' -> enabled s' m = enabled s m.
  Proof.
    intros (H1 & H2 & H3 & H4 & H5). destruct m; cbn; auto; rewrite ?H1, ?H2, ?H4, ?H5; auto.
    - destruct (s_caller s t); auto. now rewrite H3.
    - destruct (s_worker s w); auto. now rewrite H3.
  Qed.
  Lemma same_refl s : same s s.
  Proof. repeat split; auto. Qed.
  Lemma same_trans s s' s'' : same s s' -> same s' s'' -> same s s''.
  Proof. intros (H1 & H2 & H3 & H4 & H5) (J1 & J2 & J3 & J4 & J5). split; [|split; [|split; [|split]]]; intros; congruence. Qed.
  Lemma same_effort s s' : same s s' -> effort s' = effort s.
  Proof.
    intros (H1 & H2 & H3 & H4 & H5). unfold effort. rewrite H4, H5. unfold sum_to.
    rewrite (map_ext _ (fun i => rank_c (s_caller s i)) (fun i => f_equal rank_c (H1 i))).
    now rewrite (map_ext _ (fun i => rank_w (s_worker s i)) (fun i => f_equal rank_w (H2 i))).
  Qed.

  Lemma waiting_app (l l' : list job) : waiting (l ++ l') = waiting l + waiting l'.
  Proof. unfold waiting. now rewrite filter_app, app_length. Qed.
  Lemma waiting_remove l : waiting (remove_all l) = 0.
  Proof. unfold waiting. destruct (filter _ (remove_all l)) as [|j k] eqn:E; auto. assert (H : In j (j :: k)) by now left. rewrite <- E in H. apply filter_In in H as [H1 H2]. apply in_remove_all in H1 as (H1 & _). rewrite H1 in H2. discriminate. Qed.
  Lemma waiting_none l : waiting l = 0 <-> forall j : job, In j l -> j_active j = true.
  Proof.
    unfold waiting. split.
    - intros H j Hj. destruct (j_active j) eqn:E; auto. apply length_zero_iff_nil in H. assert (Hi : In j (filter (fun j => negb (j_active j)) l)) by (apply filter_In; split; auto; now rewrite E).
      rewrite H in Hi. easy.
    - intros H. destruct (filter _ l) as [|j k] eqn:E; auto. assert (Hi : In j (j :: k)) by now left. rewrite <- E in Hi. apply filter_In in Hi as [H1 H2]. rewrite (H j H1) in H2. discriminate.
  Qed.
  Lemma waiting_finish tr s w ld : pool workers tr s -> wload (s_worker s w) = Some ld -> waiting (finish (l_id ld) (s_jobs s)) <= waiting (s_jobs s).
  Proof.
    intros _ _. unfold waiting, finish. generalize (s_jobs s) as l. induction l as [|j l IH]; cbn; auto.
    destruct (negb (l_id (j_load j) =? l_id ld)); cbn; destruct (negb (j_active j)); cbn; lia.
  Qed.

  Definition few s : Prop := forall t, callers <= t -> s_caller s t = CIdle.
  Lemma effort_move tr s m s' x : all tr s -> few s -> steps m -> load_move s m = Ok (s', x) ->
    few s' /\ if enabled s m then effort s' < effort s else same s s'.
  Proof.
    intros ((HL & HP & HN) & _) HC Hm E.
    assert (Ht : forall t, s_caller s t <> CIdle -> t < callers) by (intros t H; destruct (le_lt_dec callers t); auto; now rewrite HC in H).
    split.
    - intros t0 H0. specialize (HC t0 H0). moves m E; try easy; auto; cbn; unfold upd; destruct (Nat.eqb_spec t0 t) as [->|]; auto; congruence.
    - moves m E; try easy; cbn [enabled]; rewrite ?Et, ?Ew, ?Hw, ?Em; cbn [andb length negb Nat.eqb];
      repeat match goal with Hlk : n_lock _ = _ |- _ => rewrite Hlk; clear Hlk end; try apply same_refl.
      all: repeat match goal with Hx : s_caller _ ?t = _ |- _ => lazymatch goal with Htc : t < callers |- _ => fail | _ => assert (t < callers) by (apply Ht; congruence) end end.
      all: repeat match goal with Hx : (_ <? workers) = true |- _ => apply Nat.ltb_lt in Hx end.
      all: unfold effort; cbn [s_caller s_worker s_jobs s_messages set_caller set_worker set_engine set_jobs set_messages next_id].
      all: rewrite ?waiting_remove, ?waiting_app, ?app_length; cbn [waiting filter j_active negb length].
      all: repeat match goal with Htc : ?t < callers, Et : s_caller ?s ?t = _ |- context [upd (s_caller ?s) ?t ?c] => pose proof (sum_upd callers rank_c (s_caller s) t c Htc) as HU; rewrite Et in HU; cbn [rank_c] in HU; clear Htc end.
      all: repeat match goal with Hw : ?w < workers, Ew : s_worker ?s ?w = _ |- context [upd (s_worker ?s) ?w ?c] => pose proof (sum_upd workers rank_w (s_worker s) w c Hw) as HU; rewrite Ew in HU; cbn [rank_w] in HU; clear Hw end.
      all: try lia.
      + destruct (pick_spec _ _ _ (fun j H1 H2 => proj1 (p_waiting _ _ _ HP j H1 H2)) Ep) as (l1 & l2 & Ej & ->).
        rewrite Ej, !waiting_app in *. unfold waiting in *. cbn [filter j_active negb length] in *.
        destruct (Nat.eqb_spec (length (filter (fun j : job => negb (j_active j)) l1) + S (length (filter (fun j : job => negb (j_active j)) l2))) 0); cbn [negb]; lia.
      + destruct (pick_spec _ _ _ (fun j H1 H2 => proj1 (p_waiting _ _ _ HP j H1 H2)) Ep) as (-> & Ha). apply waiting_none in Ha.
        rewrite Ha. cbn [Nat.eqb negb]. repeat split; cbn; auto. intros w'. unfold upd. destruct (Nat.eqb_spec w' w) as [->|]; auto.
      + pose proof (waiting_finish tr s w ld HP ltac:(now rewrite Ew)). lia.
      + rewrite Em. cbn. lia.
  Qed.

  (** ** Somebody can always go on *)
  Definition at_rest s : Prop := quiescent s /\ s_messages s = [].
  Lemma worker_low tr s w : all tr s -> s_worker s w <> WIdle -> w < workers.
  Proof.
    intros ((HL & HP & HN) & _) H. assert (exists ld, wload (s_worker s w) = Some ld) as [ld Hl] by (destruct (s_worker s w); cbn; eauto; congruence).
    destruct (p_worker _ _ _ HP w ld Hl) as [b Hb]. destruct (p_active _ _ _ HP _ Hb eq_refl) as (w' & Hw & Hl').
    now rewrite (p_distinct _ _ _ HP w w' ld ld Hl Hl' eq_refl).
  Qed.
  Definition thread (m : move request) : Prop :=
    match m with StepCaller t => t < callers | StepWorker w => w < workers | Message => True | _ => False end.
  Lemma holder_enabled tr s o e : all tr s -> few s -> n_lock (s_engine s e) = Some o -> exists m, thread m /\ enabled s m = true.
  Proof.
    intros HA HC H. pose proof HA as ((HL & _) & _). apply HL in H. destruct o as [t|w]; cbn in H.
    - exists (StepCaller t). cbn. split.
      + destruct (le_lt_dec callers t) as [Hle|]; auto. rewrite (HC t Hle) in H. discriminate.
      + destruct (s_caller s t); cbn in H; try discriminate; auto.
    - assert (Hw : w < workers). { apply (worker_low tr s w HA). intros Hw. rewrite Hw in H. discriminate. }
      exists (StepWorker w). cbn [thread enabled]. split; auto. apply Nat.ltb_lt in Hw. rewrite Hw. cbn [andb].
      destruct (s_worker s w); cbn in H; try discriminate; auto.
  Qed.
  Lemma rest_or_enabled tr s : all tr s -> few s -> 0 < workers -> at_rest s \/ exists m, thread m /\ enabled s m = true.
  Proof.
    intros HA HC Hpos. pose proof HA as ((HL & HP & HN) & _).
    assert (Hcal : (forall t, s_caller s t = CIdle) \/ exists t, s_caller s t <> CIdle).
    { assert (H : forall n, (forall t, t < n -> s_caller s t = CIdle) \/ exists t, s_caller s t <> CIdle).
      { induction n as [|n [IH|IH]]; auto; [left; lia|]. destruct (s_caller s n) eqn:E.
        { left. intros t Ht. destruct (Nat.eq_dec t n) as [->|]; auto. apply IH. lia. }
        all: right; exists n; rewrite E; discriminate. }
      destruct (H callers) as [H0|H0]; auto. left. intros t. destruct (le_lt_dec callers t); auto. }
    destruct Hcal as [Hcal|[t Ht]].
    2:{ right. assert (Htc : t < callers) by (destruct (le_lt_dec callers t) as [Hle|]; auto; now rewrite (HC t Hle) in Ht).
        destruct (s_caller s t) as [|e r|e id r|e id r|e id r|e id r|e id r|e id] eqn:Et; try (now destruct Ht); try (exists (StepCaller t); cbn; rewrite Et; auto; fail).
        destruct (n_lock (s_engine s e)) as [o|] eqn:El; [apply (holder_enabled tr s o e); auto|].
        exists (StepCaller t). cbn. rewrite Et, El. auto. }
    assert (Hwor : (forall w, s_worker s w = WIdle) \/ exists w, s_worker s w <> WIdle).
    { assert (H : forall n, (forall t, t < n -> s_worker s t = WIdle) \/ exists t, s_worker s t <> WIdle).
      { induction n as [|n [IH|IH]]; auto; [left; lia|]. destruct (s_worker s n) eqn:E.
        { left. intros w Hw. destruct (Nat.eq_dec w n) as [->|]; auto. apply IH. lia. }
        all: right; exists n; rewrite E; discriminate. }
      destruct (H workers) as [H0|H0]; auto. left. intros w. destruct (le_lt_dec workers w); auto.
      destruct (s_worker s w) eqn:E; auto; assert (w < workers) by (apply (worker_low tr s w HA); congruence); lia. }
    destruct Hwor as [Hwor|[w Hw]].
    2:{ right. pose proof (worker_low tr s w HA Hw) as Hlt. pose proof Hlt as Hlt'. apply Nat.ltb_lt in Hlt'.
        destruct (s_worker s w) as [|ld|ld c|ld c|ld c|ld|ld|ld|ld] eqn:Ew; try (now destruct Hw); try (exists (StepWorker w); cbn [thread enabled]; rewrite Ew, Hlt'; auto; fail).
        destruct (n_lock (s_engine s (l_engine ld))) as [o|] eqn:El; [apply (holder_enabled tr s o (l_engine ld)); auto|].
        exists (StepWorker w). cbn [thread enabled]. rewrite Ew, Hlt', El. auto. }
    destruct (s_jobs s) as [|j l] eqn:Ej.
    - destruct (s_messages s) as [|e k] eqn:Em; [left; repeat split; auto|]. right. exists Message. cbn. rewrite Em. auto.
    - right. exists (StepWorker 0). cbn [thread enabled]. split; auto. pose proof Hpos as Hp'. apply Nat.ltb_lt in Hp'. rewrite Hp', Hwor. cbn [andb].
      destruct (Nat.eqb_spec (waiting (s_jobs s)) 0) as [H0|]; auto.
      apply waiting_none with (j := j) in H0; [|rewrite Ej; now left]. destruct (p_active _ _ _ HP j) as (w & _ & Hw); [rewrite Ej; now left|auto|].
      rewrite Hwor in Hw. discriminate.
  Qed.

  (** ** Fair rounds *)
  Lemma thread_steps m : thread m -> steps m.
  Proof. destruct m; cbn; auto. Qed.
  Lemma steps_permitted s m : steps m -> permitted s m.
  Proof. intros H. destruct m; try easy; (split; [easy|split; [discriminate|split; discriminate]]). Qed.
  Lemma steps_run ms tr s : all tr s -> few s -> secure s -> (forall m, In m ms -> steps m) ->
    exists s' x, load_run s ms = Ok (s', x) /\ all (tr ++ x) s' /\ few s' /\ secure s' /\
      (effort s' < effort s \/ same s s' /\ forall m, In m ms -> enabled s m = false).
  Proof.
    revert tr s. induction ms as [|m ms IH]; intros tr s HA HC HS H; cbn [Loader.load_run].
    - exists s, []. rewrite app_nil_r. split; [reflexivity|]. split; [exact HA|]. split; [exact HC|]. split; [exact HS|]. right. split; [apply same_refl|easy].
    - pose proof (H m (or_introl eq_refl)) as Hm.
      destruct (secure_ok tr s m HA HS (steps_permitted s m Hm)) as (s1 & x1 & E). rewrite E. cbn [bind].
      destruct (effort_move tr s m s1 x1 HA HC Hm E) as [HC1 Hd].
      destruct (IH (tr ++ x1) s1) as (s2 & x2 & E2 & H1 & H2 & H3 & H4).
      { eapply all_move; eauto. } { auto. } { eapply secure_move; eauto. now apply steps_permitted. } { intros m' Hm'. apply H. now right. }
      rewrite E2. cbn [bind]. exists s2, (x1 ++ x2). rewrite app_assoc. split; auto. split; auto. split; auto. split; auto.
      destruct (enabled s m) eqn:En.
      + left. destruct H4 as [H4|[H4 _]]; [lia|]. rewrite (same_effort s1 s2 H4). lia.
      + rewrite <- (same_effort s s1 Hd). destruct H4 as [H4|[H4 H5]]; [auto|]. right. split; [eapply same_trans; eauto|].
        intros m' [<- |Hm']; auto. rewrite <- (same_enabled s s1); auto.
  Qed.
  Notation fair := (@fair request workers callers).
  Lemma rounds bs : 0 < workers -> forall tr s, all tr s -> few s -> secure s -> (forall b, In b bs -> fair b) -> effort s <= length bs ->
    exists s' x, load_run s (concat bs) = Ok (s', x) /\ at_rest s'.
  Proof.
    intros Hpos. induction bs as [|b bs IH]; intros tr s HA HC HS H Hl.
    - exists s, []. split; auto. destruct (rest_or_enabled tr s HA HC Hpos) as [?|(m & Hm & He)]; auto. exfalso.
      destruct (secure_ok tr s m HA HS (steps_permitted s m (thread_steps m Hm))) as (s1 & x1 & E).
      destruct (effort_move tr s m s1 x1 HA HC (thread_steps m Hm) E) as [_ Hd]. rewrite He in Hd. cbn in Hl. lia.
    - cbn [concat]. rewrite run_app. destruct (H b (or_introl eq_refl)) as (Hb & Hc & Hw & Hme).
      destruct (steps_run b tr s HA HC HS) as (s1 & x1 & E & HA1 & HC1 & HS1 & Hd); [auto|]. rewrite E. cbn [bind].
      assert (Hr : effort s1 <= length bs \/ at_rest s1).
      { destruct Hd as [Hd|[Hd He]]; [cbn in Hl; left; lia|]. right.
        destruct (rest_or_enabled (tr ++ x1) s1 HA1 HC1 Hpos) as [?|(m & Hm & He')]; auto. exfalso.
        assert (Hi : In m b) by (destruct m; cbn in Hm; try easy; auto). rewrite (same_enabled s s1 m Hd) in He'. rewrite (He m Hi) in He'. discriminate. }
      destruct Hr as [Hr|Hr].
      + destruct (IH (tr ++ x1) s1 HA1 HC1 HS1 (fun b Hb => H b (or_intror Hb)) Hr) as (s2 & x2 & E2 & H2). rewrite E2. cbn. eauto.
      + destruct (steps_run (concat bs) (tr ++ x1) s1 HA1 HC1 HS1) as (s2 & x2 & E2 & HA2 & HC2 & HS2 & Hd2).
        { intros m Hm. apply in_concat in Hm as (b' & Hb' & Hm). destruct (H b' (or_intror Hb')) as (Hx & _). auto. }
        rewrite E2. cbn [bind]. exists s2, (x1 ++ x2). split; auto.
        assert (Hz : effort s1 = 0).
        { destruct Hr as ((R1 & R2 & R3) & R4). unfold effort, sum_to. rewrite R3, R4.
          rewrite (map_ext _ (fun _ => 0)); [|intros i; now rewrite R1]. rewrite (map_ext (fun i => rank_w _) (fun _ => 0)); [|intros i; now rewrite R2].
          assert (Hs : forall k a, list_sum (map (fun _ : nat => 0) (seq a k)) = 0) by (induction k; intros; cbn; auto). rewrite !Hs. reflexivity. }
        destruct Hd2 as [Hd2|[(D1 & D2 & D3 & D4 & D5) _]]; [lia|]. destruct Hr as ((R1 & R2 & R3) & R4).
        split; [split; [|split]|]; [intros t; rewrite D1; auto|intros w; rewrite D2; auto|congruence|congruence].
  Qed.
End Live.

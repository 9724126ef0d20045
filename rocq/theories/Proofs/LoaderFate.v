(** * Lemmas about loading: what becomes of a load *)
From Verif.Model Require Import Base ConvolutionEngine Loader.
From Verif.Spec Require Import Loading.
From Verif.Proofs Require Import LoaderProof.

Section Fate.
  Context {request conv : Type}.
  Variable build : request -> process_spec -> res conv.
  Variable workers : nat.
  Notation trace := (list (event request conv)).
  Notation state := (state request conv).
  Notation job := (job request).
  Notation load_move := (@load_move request conv build workers).
  Notation load_run := (@load_run request conv build workers).
  Notation inv := (@inv request conv workers).
  Implicit Types (tr : trace) (s : state).
  Ltac moves m E := load_moves build workers m E.

  (** ** A load that is not cancelled *)
  Definition on_its_way (id e : nat) tr s : Prop :=
    (exists c, In (Pushed id e c) tr) \/
    (exists j, In j (s_jobs s) /\ jid j = id /\ l_engine (j_load j) = e /\ j_stop j = false /\
       (j_active j = true -> exists w, early (s_worker s w) = Some (j_load j))) \/
    (exists w ld, pushing (s_worker s w) = Some ld /\ l_id ld = id /\ l_engine ld = e).
  Definition fate tr s : Prop := forall tr1 id e tr2, tr = tr1 ++ Queued id e :: tr2 ->
    (forall id' e', ~ In (Cancelled id' e') tr2) -> on_its_way id e tr s.

  Lemma fate_new : fate [] load_new.
  Proof. intros [|? ?]; discriminate. Qed.
  Lemma fate_step tr s x s' : fate tr s ->
    (forall id e, on_its_way id e tr s -> on_its_way id e (tr ++ x) s' \/ exists id' e', In (Cancelled id' e') x) ->
    x = [] \/ (exists y, x = [y] /\ forall id e, y = Queued id e -> on_its_way id e (tr ++ x) s') -> fate (tr ++ x) s'.
  Proof.
    intros H Hk Hx tr1 id e tr2 E Hc. destruct Hx as [->|(y & -> & Hy)].
    - rewrite app_nil_r in *. destruct (Hk id e) as [?|(? & ? & [])]; eauto.
    - apply snoc_split in E as [(-> & -> & E)|(l3 & -> & ->)]; [eauto|].
      destruct (Hk id e) as [?|(id' & e' & [-> | []])]; auto.
      + apply (H tr1 id e l3); auto. intros id' e' Hi. apply (Hc id' e'). apply in_app_iff. auto.
      + destruct (Hc id' e'). apply in_app_iff. right. now left.
  Qed.
  Lemma fate_same tr s x s' : fate tr s -> s_jobs s' = s_jobs s ->
    (forall w ld, early (s_worker s w) = Some ld -> early (s_worker s' w) = Some ld) ->
    (forall w ld, pushing (s_worker s w) = Some ld -> pushing (s_worker s' w) = Some ld) ->
    x = [] \/ (exists y, x = [y] /\ forall id e, y <> Queued id e) -> fate (tr ++ x) s'.
  Proof.
    intros H Ej E1 E2 Hx. apply (fate_step tr s); auto.
    - intros id e [(c & Hc)|[(j & H1 & H2 & H3 & H4 & H5)|(w & ld & H1 & H2)]]; left.
      + left. exists c. apply in_app_iff. auto.
      + right. left. exists j. rewrite Ej. repeat split; auto. intros Ha. destruct (H5 Ha) as [w Hw]. eauto.
      + right. right. eauto 6.
    - destruct Hx as [->|(y & -> & Hy)]; auto. right. exists y. split; auto. intros id e ->. now destruct (Hy id e).
  Qed.

  Lemma fate_move tr s m s' x : inv tr s -> fate tr s -> load_move s m = Ok (s', x) -> fate (tr ++ x) s'.
  Proof.
    intros (HL & HP & HN) H E. moves m E; rewrite ?app_nil_r; auto.
    all: try solve [
      lazymatch goal with |- fate (_ ++ _) _ => idtac | _ => rewrite <- (app_nil_r tr) end; apply (fate_same _ s); auto; cbn; unfold upd;
      try (intros w'; destruct (Nat.eqb_spec w' w) as [->|]; rewrite ?Ew; cbn; solve [auto|congruence]);
      (right; eexists; split; [reflexivity|congruence])].
    - (* Cancelled *)
      apply (fate_step tr s); auto.
      + intros id' e' _. right. exists id, e. now left.
      + right. eexists. split; [reflexivity|discriminate].
    - (* Queued *)
      apply (fate_step tr s); auto.
      + intros id' e' [(c & Hc)|[(j & H1 & H2 & H3 & H4 & H5)|(w & ld & H1 & H2)]]; left.
        * left. exists c. apply in_app_iff. auto.
        * right. left. exists j. cbn. repeat split; auto. apply in_app_iff. auto.
        * right. right. cbn. eauto 6.
      + right. eexists. split; [reflexivity|]. intros id' e' [= <- <-]. right. left. eexists. cbn.
        split; [apply in_app_iff; right; left; reflexivity|]. cbn. repeat split; auto. discriminate.
    - (* a job is picked *)
      apply pick_spec in Ep as (l1 & l2 & Ej & ->); [|intros j H1 H2; exact (proj1 (p_waiting _ _ _ HP j H1 H2))].
      rewrite <- (app_nil_r tr). apply (fate_step tr s); auto.
      intros id e [(c & Hc)|[(j & H1 & H2 & H3 & H4 & H5)|(w' & ld' & H1 & H2)]]; left; rewrite app_nil_r.
      + left. eauto.
      + right. left. cbn. rewrite Ej in H1. apply in_elt_inv in H1 as [Hq|H1].
        * subst j. eexists. split; [apply in_elt|]. cbn. repeat split; auto. intros _. exists w. now rewrite upd_same.
        * exists j. repeat split; auto.
          -- apply in_app_iff in H1 as [?|?]; apply in_app_iff; cbn; auto.
          -- intros Ha. destruct (H5 Ha) as [w' Hw']. exists w'. rewrite upd_other; auto. intros ->. rewrite Ew in Hw'. discriminate.
      + right. right. exists w', ld'. cbn. rewrite upd_other; auto. intros ->. rewrite Ew in H1. discriminate.
    - (* no job is waiting *)
      destruct (pick_spec _ _ _ (fun j H1 H2 => proj1 (p_waiting _ _ _ HP j H1 H2)) Ep) as [-> _].
      rewrite <- (app_nil_r tr). apply (fate_same tr s); auto; cbn; unfold upd.
      + intros w'. destruct (Nat.eqb_spec w' w) as [->|]; rewrite ?Ew; auto.
      + intros w'. destruct (Nat.eqb_spec w' w) as [->|]; rewrite ?Ew; auto.
    - (* the job was told to stop *)
      match goal with Hq : should_exit _ _ = true |- _ => apply existsb_exists in Hq as (j0 & Hj0 & Hx) end.
      apply andb_prop in Hx as [Hid Hst]. apply Nat.eqb_eq in Hid.
      rewrite <- (app_nil_r tr). apply (fate_step tr s); auto.
      intros id e [(c' & Hc)|[(j & H1 & H2 & H3 & H4 & H5)|(w' & ld' & H1 & H2)]]; left; rewrite app_nil_r.
      + left. eauto.
      + right. left. cbn. exists j. repeat split; auto. intros Ha. destruct (H5 Ha) as [w' Hw']. exists w'. rewrite upd_other; auto.
        intros ->. rewrite Ew in Hw'. cbn in Hw'. injection Hw' as Hw'.
        assert (j0 = j) as ->; [|congruence]. apply (nodup_inj _ _ _ (p_nodup _ _ _ HP) Hj0 H1). congruence.
      + right. right. exists w', ld'. cbn. rewrite upd_other; auto. intros ->. rewrite Ew in H1. discriminate.
    - (* Pushed *)
      apply (fate_step tr s); auto; [|right; eexists; split; [reflexivity|discriminate]].
      intros id e [(c' & Hc)|[(j & H1 & H2 & H3 & H4 & H5)|(w' & ld' & H1 & H2 & H3)]]; left.
      + left. exists c'. apply in_app_iff. auto.
      + destruct (Nat.eq_dec (l_id ld) (jid j)) as [Hid|Hid].
        * left. destruct (p_worker _ _ _ HP w ld) as [b Hb]; [now rewrite Ew|].
          pose proof (nodup_inj _ _ _ (p_nodup _ _ _ HP) Hb H1 Hid) as <-. cbn in *. subst. exists c. apply in_app_iff. right. now left.
        * right. left. cbn. exists j. repeat split; auto. intros Ha. destruct (H5 Ha) as [w' Hw']. exists w'. rewrite upd_other; auto.
          intros ->. rewrite Ew in Hw'. cbn in Hw'. injection Hw' as Hw'. now rewrite Hw' in Hid.
      + destruct (Nat.eq_dec w' w) as [->|Hn].
        * left. rewrite Ew in H1. cbn in H1. injection H1 as <-. subst. exists c. apply in_app_iff. right. now left.
        * right. right. exists w', ld'. cbn. rewrite upd_other; auto.
    - (* a job is removed *)
      rewrite <- (app_nil_r tr). apply (fate_step tr s); auto.
      intros id e [(c' & Hc)|[(j & H1 & H2 & H3 & H4 & H5)|(w' & ld' & H1 & H2)]]; left; rewrite app_nil_r.
      + left. eauto.
      + right. left. cbn. exists j. repeat split; auto.
        * apply in_finish. split; auto. intros Hid.
          destruct (p_worker _ _ _ HP w ld) as [b Hb]; [now rewrite Ew|].
          pose proof (nodup_inj _ _ _ (p_nodup _ _ _ HP) Hb H1 (eq_sym Hid)) as <-. cbn in *.
          destruct (H5 eq_refl) as [w' Hw']. assert (w' = w) as ->; [|rewrite Ew in Hw'; discriminate].
          apply (p_distinct _ _ _ HP w' w ld ld); auto; [now apply early_wload|now rewrite Ew].
        * intros Ha. destruct (H5 Ha) as [w' Hw']. exists w'. rewrite upd_other; auto. intros ->. rewrite Ew in Hw'. discriminate.
      + right. right. exists w', ld'. cbn. rewrite upd_other; auto. intros ->. rewrite Ew in H1. discriminate.
  Qed.

  (** ** [is_loading_] *)
  (** about to notify the listeners or to add the job; about to store false *)
  Definition announcing (c : caller request) : option nat :=
    match c with CEmit e _ _ | CAdd e _ _ => Some e | _ => None end.
  Definition flagging (k : worker request conv) : option (load request) :=
    match k with WFlag l => Some l | _ => None end.
  Definition loading_call (c : caller request) : option nat :=
    match c with CFlag e _ _ | CEmit e _ _ | CAdd e _ _ => Some e | _ => None end.
  Definition busy (c : caller request) : option nat :=
    match c with CRemove e _ _ | CSpec e _ _ | CFlag e _ _ | CEmit e _ _ | CAdd e _ _ => Some e | _ => None end.
  Record flags tr s : Prop := {
    f_began : forall t id e r, In (Began t id e r) tr -> id < s_next s;
    f_unique : forall t t' id e e' r r', In (Began t id e r) tr -> In (Began t' id e' r') tr -> e = e' /\ r = r';
    f_queued : forall id e, In (Queued id e) tr -> id < s_next s;
    f_calls : forall t e, loading_call (s_caller s t) = Some e -> n_spec (s_engine s e) <> None;
    f_unprepared : forall e, n_spec (s_engine s e) = None -> n_loading (s_engine s e) = false;
    f_flagging : forall w ld, flagging (s_worker s w) = Some ld ->
      last_began (l_engine ld) tr = Some (l_id ld) /\ is_pushed (l_id ld) tr;
    f_true : forall e, n_loading (s_engine s e) = true ->
      (exists t, busy (s_caller s t) = Some e) \/
      (exists id, last_began e tr = Some id /\ In (Queued id e) tr /\
        (~ is_pushed id tr \/ exists w ld, flagging (s_worker s w) = Some ld /\ l_engine ld = e));
    f_false : forall tr1 t id e r tr2, tr = tr1 ++ Began t id e r :: tr2 -> last_began e tr = Some id ->
      ~ In (ResetDone e true) tr2 ->
      (forall t', announcing (s_caller s t') = Some e -> n_loading (s_engine s e) = true) /\
      (In (Queued id e) tr -> ~ is_pushed id tr -> n_loading (s_engine s e) = true)
  }.
  Lemma flags_new : flags [] load_new.
  Proof. constructor; cbn; easy. Qed.

  Lemma last_began_in e tr id : last_began e tr = Some id -> exists t r, In (Began t id e r) tr.
  Proof.
    unfold last_began. intros H.
    assert (Hi : In id (began e tr)) by (apply in_rev; destruct (rev (began e tr)); [discriminate|injection H as ->; now left]).
    unfold began in Hi. apply in_flat_map in Hi as (x & Hx & Hi). destruct x; try easy. destruct (Nat.eqb_spec e0 e) as [->|]; [|easy].
    destruct Hi as [<- | []]. eauto.
  Qed.
  (** moves that leave everything relevant alone *)
  Definition silent (x : list (event request conv)) : Prop :=
    match x with [] | [Cancelled _ _] | [Returned _ _ _] | [Notified _ _] | [Prepared _ _] | [EngineDestroyed _] => True | _ => False end.
  Lemma silent_in x y tr : silent x -> match y with Began _ _ _ _ | Queued _ _ | Pushed _ _ _ | ResetDone _ _ => True | _ => False end ->
    In y (tr ++ x) -> In y tr.
  Proof.
    intros Hx Hy H. apply in_app_iff in H as [H|H]; auto. destruct x as [|a [|b x]]; try easy; [|destruct a; easy].
    destruct H as [-> | []]. destruct y; easy.
  Qed.
  Lemma silent_began x e tr : silent x -> last_began e (tr ++ x) = last_began e tr.
  Proof.
    destruct x as [|a [|b x]]; [now rewrite app_nil_r| |destruct a; easy]. rewrite last_began_snoc. destruct a; easy.
  Qed.
  Lemma silent_pushed x id tr : silent x -> is_pushed id (tr ++ x) <-> is_pushed id tr.
  Proof. intros H. unfold is_pushed. split; intros (e & c & Hi); exists e, c; [eapply silent_in; eauto; exact I|apply in_app_iff; auto]. Qed.
  Lemma flags_same tr s x s' : flags tr s -> silent x -> s_next s' = s_next s ->
    (forall t e, loading_call (s_caller s' t) = Some e -> loading_call (s_caller s t) = Some e \/ n_spec (s_engine s e) <> None) ->
    (forall e, n_spec (s_engine s e) <> None -> n_spec (s_engine s' e) <> None) ->
    (forall e, n_loading (s_engine s' e) = n_loading (s_engine s e)) ->
    (forall w ld, flagging (s_worker s' w) = Some ld <-> flagging (s_worker s w) = Some ld) ->
    (forall t e, busy (s_caller s t) = Some e -> busy (s_caller s' t) = Some e \/ n_spec (s_engine s e) = None) ->
    (forall t e, announcing (s_caller s' t) = Some e -> announcing (s_caller s t) = Some e) ->
    flags (tr ++ x) s'.
  Proof.
    intros H Hx En E1 E2 E3 E4 E5 E6. destruct H. constructor; rewrite ?En; auto.
    - intros t id e r Hi. apply (f_began0 t id e r). eapply silent_in; eauto.
    - intros t t' id e e' r r' Hi Hi'. apply (f_unique0 t t' id); eapply silent_in; eauto.
    - intros id e Hi. apply (f_queued0 id e). eapply silent_in; eauto.
    - intros t e H. destruct (E1 t e H) as [?|?]; eauto.
    - intros e H. rewrite E3. apply f_unprepared0. destruct (n_spec (s_engine s e)) eqn:E; auto. destruct (E2 e); congruence.
    - intros w ld H. apply E4 in H. rewrite silent_began, silent_pushed by auto. eauto.
    - intros e H. rewrite E3 in H. destruct (f_true0 e H) as [[t Ht]|(id & H1 & H2 & H3)].
      + destruct (E5 t e Ht) as [?|?]; eauto. rewrite f_unprepared0 in H; [discriminate|auto].
      + right. exists id. rewrite silent_began, silent_pushed by auto. split; auto. split; [apply in_app_iff; auto|].
        destruct H3 as [?|(w & ld & H3 & H4)]; auto. right. exists w, ld. rewrite E4. auto.
    - intros tr1 t id e r tr2 E Hlast Hres. rewrite silent_began in Hlast by auto. rewrite silent_pushed, E3 by auto.
      assert (HB : exists tr3, tr = tr1 ++ Began t id e r :: tr3 /\ tr2 = tr3 ++ x).
      { destruct x as [|a [|b x]].
        - rewrite app_nil_r in E. exists tr2. rewrite app_nil_r. auto.
        - apply snoc_split in E as [(-> & -> & <-)|(l3 & -> & ->)]; [easy|eauto].
        - destruct a; easy. }
      destruct HB as (tr3 & E' & ->). destruct (f_false0 tr1 t id e r tr3 E' Hlast) as [H1 H2].
      { intros Hi. apply Hres. apply in_app_iff. auto. }
      split; [|intros Hq; apply H2; eapply silent_in; eauto; exact I]. intros t' Ht'. apply (H1 t'). auto.
  Qed.

  Lemma flags_reset tr s e n : flags tr s -> n_loading n = false -> n_spec n = n_spec (s_engine s e) ->
    flags (tr ++ [ResetDone e (n_loading (s_engine s e))]) (set_engine e n s).
  Proof.
    intros H E1 E2.
    assert (HS : forall e', n_spec (s_engine (set_engine e n s) e') = n_spec (s_engine s e')).
    { intros e'. cbn. unfold upd. destruct (Nat.eqb_spec e' e) as [->|]; auto. }
    destruct H. constructor; cbn [set_engine s_next s_caller s_worker].
    - intros t id e' r Hi. apply in_app_iff in Hi as [Hi|[Hi|[]]]; [eauto|discriminate].
    - intros t t' id e1 e2 r r' Hi Hi'. apply in_app_iff in Hi as [Hi|[Hi|[]]]; [|discriminate].
      apply in_app_iff in Hi' as [Hi'|[Hi'|[]]]; [eauto|discriminate].
    - intros id e' Hi. apply in_app_iff in Hi as [Hi|[Hi|[]]]; [eauto|discriminate].
    - intros t e'. change (s_engine _ e') with (s_engine (set_engine e n s) e'). rewrite HS. apply f_calls0.
    - intros e'. change (s_engine _ e') with (s_engine (set_engine e n s) e'). rewrite HS. cbn. unfold upd.
      destruct (Nat.eqb_spec e' e) as [->|]; auto.
    - intros w ld H. rewrite last_began_snoc, is_pushed_snoc. destruct (f_flagging0 w ld H). auto.
    - intros e'. cbn [set_engine s_engine]. unfold upd. destruct (Nat.eqb_spec e' e) as [->|]; [intros Hl; congruence|]. intros H. destruct (f_true0 e' H) as [?|(id & H1 & H2 & H3)]; auto.
      right. exists id. rewrite last_began_snoc, is_pushed_snoc. split; auto. split; [apply in_app_iff; auto|].
      destruct H3 as [H3|H3]; auto. left. tauto.
    - intros tr1 t id e' r tr2 E Hlast Hres. rewrite last_began_snoc in Hlast. rewrite is_pushed_snoc.
      apply snoc_split in E as [(-> & -> & E)|(l3 & -> & Etr)]; [discriminate|].
      assert (Hr : ~ In (ResetDone e' true) l3) by (intros Hi; apply Hres; apply in_app_iff; auto).
      destruct (f_false0 _ _ _ _ _ _ Etr Hlast Hr) as [H1 H2].
      assert (Hq : In (Queued id e') (tr ++ [ResetDone e (n_loading (s_engine s e))]) -> In (Queued id e') tr).
      { intros Hi. apply in_app_iff in Hi as [Hi|[Hi|[]]]; [auto|discriminate]. }
      cbn [set_engine s_engine]. unfold upd. destruct (Nat.eqb_spec e' e) as [->|]; [|split; [exact H1|intros Hi Hp; apply H2; [auto|tauto]]].
      destruct (n_loading (s_engine s e)) eqn:El.
      { destruct Hres. apply in_app_iff. right. now left. }
      split; [intros t' Ht'; specialize (H1 t' Ht'); congruence|].
      intros Hi Hp. assert (Hx : n_loading n = true); [|auto]. exfalso. specialize (H2 (Hq Hi)). assert (false = true); [apply H2; tauto|discriminate].
  Qed.

  Lemma flags_move tr s m s' x : inv tr s -> flags tr s -> load_move s m = Ok (s', x) -> flags (tr ++ x) s'.
  Proof.
    intros (HL & HP & HN) H E. moves m E; rewrite ?app_nil_r; auto.
    all: try solve [
      lazymatch goal with |- flags (_ ++ _) _ => idtac | _ => rewrite <- (app_nil_r tr) end; apply (flags_same _ s); auto; cbn; auto; unfold upd; try solve [intros; tauto];
      try (intros w' ld'; destruct (Nat.eqb_spec w' w) as [->|]; rewrite ?Ew; cbn; solve [tauto|split; congruence]);
      try (intros t' e'; destruct (Nat.eqb_spec t' t) as [->|]; rewrite ?Et; cbn; solve [auto|congruence|intros [= <-]; auto; right; congruence]);
      try (intros e'; destruct (Nat.eqb_spec e' e) as [->|]; cbn; solve [auto|congruence]);
      try (intros e'; destruct (Nat.eqb_spec e' (l_engine ld)) as [->|]; cbn; solve [auto|congruence])
      ].
    - (* Began *)
      assert (HF : forall o, ~ holds s o e) by (intros o Ho; apply HL in Ho; congruence).
      destruct H. constructor; cbn.
      + intros t' id' e' r' Hi. apply in_app_iff in Hi as [Hi|[Hi|[]]]; [specialize (f_began0 _ _ _ _ Hi); lia|injection Hi as _ -> _ _; lia].
      + intros t1 t2 id' e1 e2 r1 r2 Hi Hi'. apply in_app_iff in Hi as [Hi|[Hi|[]]]; apply in_app_iff in Hi' as [Hi'|[Hi'|[]]].
        * eauto.
        * injection Hi' as _ <- _ _. specialize (f_began0 _ _ _ _ Hi). lia.
        * injection Hi as _ <- _ _. specialize (f_began0 _ _ _ _ Hi'). lia.
        * injection Hi as _ <- <- <-. injection Hi' as _ <- <-. auto.
      + intros id' e' Hi. apply in_app_iff in Hi as [Hi|[Hi|[]]]; [specialize (f_queued0 _ _ Hi); lia|discriminate].
      + intros t' e'. unfold upd. destruct (Nat.eqb_spec t' t) as [->|]; [discriminate|]. intros Hc. specialize (f_calls0 _ _ Hc). destruct (Nat.eqb_spec e' e) as [->|]; auto.
      + intros e'. unfold upd. destruct (Nat.eqb_spec e' e) as [->|]; cbn; auto.
      + intros w ld Hc. rewrite last_began_snoc, is_pushed_snoc. destruct (Nat.eqb_spec e (l_engine ld)) as [->|].
        * destruct (HF (ByWorker w)). cbn. destruct (s_worker s w); cbn in *; congruence.
        * destruct (f_flagging0 w ld Hc). auto.
      + intros e'. destruct (Nat.eq_dec e' e) as [->|Hne]; [left; exists t; now rewrite upd_same|].
        rewrite upd_other by auto. intros Hl. destruct (f_true0 e' Hl) as [[t' Ht']|(id & H1 & H2 & H3)].
        * left. exists t'. rewrite upd_other; auto. intros ->. rewrite Et in Ht'. discriminate.
        * right. exists id. rewrite last_began_snoc, is_pushed_snoc. apply Nat.eqb_neq in Hne. rewrite Nat.eqb_sym, Hne. split; auto. split; [apply in_app_iff; auto|].
          destruct H3 as [?|?]; auto. left. tauto.
      + intros tr1 t' id' e' r' tr2 E Hlast Hres. rewrite last_began_snoc in Hlast.
        apply snoc_split in E as [(-> & -> & E)|(l3 & -> & Etr)].
        * injection E as -> -> -> ->. rewrite upd_same. cbn. split.
          -- intros t'. unfold upd. destruct (Nat.eqb_spec t' t) as [->|]; [discriminate|]. intros Hc. destruct (HF (ByCaller t')). cbn. destruct (s_caller s t'); cbn in *; congruence.
          -- intros Hi. apply in_app_iff in Hi as [Hi|[Hi|[]]]; [specialize (f_queued0 _ _ Hi); lia|discriminate].
        * destruct (Nat.eqb_spec e e') as [<-|Hne].
          -- injection Hlast as <-. specialize (f_began0 t' (s_next s) e r'). rewrite Etr in f_began0. specialize (f_began0 (in_elt _ _ _)). lia.
          -- assert (Hr : ~ In (ResetDone e' true) l3) by (intros Hi; apply Hres; apply in_app_iff; auto).
             destruct (f_false0 _ _ _ _ _ _ Etr Hlast Hr) as [H1 H2]. rewrite upd_other by auto. rewrite is_pushed_snoc. split.
             ++ intros t1. unfold upd. destruct (Nat.eqb_spec t1 t) as [->|]; [discriminate|apply H1].
             ++ intros Hi Hp. apply H2; [|tauto]. apply in_app_iff in Hi as [Hi|[Hi|[]]]; [auto|discriminate].
    - (* is_loading_ = true *)
      assert (HS : n_spec (s_engine s e) <> None) by (apply (f_calls _ _ H t); now rewrite Et).
      destruct H. constructor; cbn; auto.
      + intros t' e' Hc. unfold upd in *. assert (n_spec (s_engine s e') <> None); [|destruct (Nat.eqb_spec e' e) as [->|]; auto].
        destruct (Nat.eqb_spec t' t) as [->|]; [cbn in Hc; injection Hc as <-; auto|eauto].
      + intros e'. unfold upd. destruct (Nat.eqb_spec e' e) as [->|]; cbn; auto. congruence.
      + intros e'. destruct (Nat.eq_dec e' e) as [->|Hne]; [left; exists t; now rewrite upd_same|].
        rewrite upd_other by auto. intros Hl. destruct (f_true0 e' Hl) as [[t' Ht']|?]; auto. left. exists t'. rewrite upd_other; auto. intros ->. rewrite Et in Ht'. cbn in Ht'. congruence.
      + intros tr1 t' id' e' r' tr2 Etr Hlast Hres. destruct (f_false0 _ _ _ _ _ _ Etr Hlast Hres) as [H1 H2].
        unfold upd. destruct (Nat.eqb_spec e' e) as [->|Hne]; [cbn; auto|]. split; auto.
        intros t1. destruct (Nat.eqb_spec t1 t) as [->|]; [cbn; congruence|apply H1].
    - (* Queued *)
      assert (HT : taken (s_caller s t) = Some (e, id)) by now rewrite Et.
      destruct (p_taken _ _ _ HP _ _ _ HT) as (Hid & Hnp & _).
      assert (HB : last_began e tr = Some id) by (apply (n_caller _ _ HN t); now rewrite Et).
      destruct H. constructor; cbn; auto.
      + intros t' id' e' r' Hi. apply in_app_iff in Hi as [Hi|[Hi|[]]]; [eauto|discriminate].
      + intros t1 t2 id' e1 e2 r1 r2 Hi Hi'. apply in_app_iff in Hi as [Hi|[Hi|[]]]; [|discriminate].
        apply in_app_iff in Hi' as [Hi'|[Hi'|[]]]; [eauto|discriminate].
      + intros id' e' Hi. apply in_app_iff in Hi as [Hi|[Hi|[]]]; [eauto|injection Hi as -> ->; auto].
      + intros t' e'. unfold upd. destruct (Nat.eqb_spec t' t) as [->|]; [discriminate|apply f_calls0].
      + intros w ld Hc. rewrite last_began_snoc, is_pushed_snoc. destruct (f_flagging0 w ld Hc). auto.
      + intros e' Hl. destruct (Nat.eq_dec e' e) as [->|Hne].
        * right. exists id. rewrite last_began_snoc, is_pushed_snoc. split; auto. split; [apply in_app_iff; right; now left|]. left. tauto.
        * destruct (f_true0 e' Hl) as [[t' Ht']|(id' & H1 & H2 & H3)].
          -- left. exists t'. rewrite upd_other; auto. intros ->. rewrite Et in Ht'. cbn in Ht'. congruence.
          -- right. exists id'. rewrite last_began_snoc, is_pushed_snoc. split; auto. split; [apply in_app_iff; auto|]. destruct H3; auto. left. tauto.
      + intros tr1 t' id' e' r' tr2 E Hlast Hres. rewrite last_began_snoc in Hlast. rewrite is_pushed_snoc.
        apply snoc_split in E as [(-> & -> & E)|(l3 & -> & Etr)]; [discriminate|].
        assert (Hr : ~ In (ResetDone e' true) l3) by (intros Hi; apply Hres; apply in_app_iff; auto).
        destruct (f_false0 _ _ _ _ _ _ Etr Hlast Hr) as [H1 H2]. split.
        * intros t1. unfold upd. destruct (Nat.eqb_spec t1 t) as [->|]; [discriminate|apply H1].
        * intros Hi Hp. apply in_app_iff in Hi as [Hi|[Hi|[]]]; [apply H2; auto|]. injection Hi as -> ->. apply (H1 t). now rewrite Et.
    - (* Pushed *)
      assert (HB : last_began (l_engine ld) tr = Some (l_id ld)) by (apply (n_pushing _ _ HN w); now rewrite Ew).
      destruct H. constructor; cbn; auto.
      + intros t' id' e' r' Hi. apply in_app_iff in Hi as [Hi|[Hi|[]]]; [eauto|discriminate].
      + intros t1 t2 id' e1 e2 r1 r2 Hi Hi'. apply in_app_iff in Hi as [Hi|[Hi|[]]]; [|discriminate].
        apply in_app_iff in Hi' as [Hi'|[Hi'|[]]]; [eauto|discriminate].
      + intros id' e' Hi. apply in_app_iff in Hi as [Hi|[Hi|[]]]; [eauto|discriminate].
      + intros w' ld'. rewrite last_began_snoc, is_pushed_snoc. unfold upd. destruct (Nat.eqb_spec w' w) as [->|].
        * cbn. intros [= <-]. auto.
        * intros Hc. destruct (f_flagging0 _ _ Hc). auto.
      + intros e' Hl. destruct (f_true0 e' Hl) as [[t' Ht']|(id' & H1 & H2 & H3)]; [eauto|].
        right. exists id'. rewrite last_began_snoc, is_pushed_snoc. split; auto. split; [apply in_app_iff; auto|].
        destruct (Nat.eq_dec (l_engine ld) e') as [<-|Hne]; [right; exists w, ld; rewrite upd_same; auto|].
        destruct H3 as [H3|(w' & ld' & H3 & H4)].
        * left. intros [?|Hi]; [tauto|]. subst id'.
          apply last_began_in in HB as (? & ? & HB). apply last_began_in in H1 as (? & ? & H1).
          now destruct (f_unique0 _ _ _ _ _ _ _ HB H1).
        * right. exists w', ld'. rewrite upd_other; auto. intros ->. rewrite Ew in H3. discriminate.
      + intros tr1 t' id' e' r' tr2 E Hlast Hres. rewrite last_began_snoc in Hlast. rewrite is_pushed_snoc.
        apply snoc_split in E as [(-> & -> & E)|(l3 & -> & Etr)]; [discriminate|].
        assert (Hr : ~ In (ResetDone e' true) l3) by (intros Hi; apply Hres; apply in_app_iff; auto).
        destruct (f_false0 _ _ _ _ _ _ Etr Hlast Hr) as [H1 H2]. split; auto.
        intros Hi Hp. apply H2; [|tauto]. apply in_app_iff in Hi as [Hi|[Hi|[]]]; [auto|discriminate].
    - (* is_loading_ = false *)
      destruct (f_flagging _ _ H w ld) as [HB HPu]; [now rewrite Ew|].
      assert (HW : holds s (ByWorker w) (l_engine ld)) by (cbn; now rewrite Ew).
      destruct H. constructor; cbn; auto.
      + intros t' e' Hc. specialize (f_calls0 _ _ Hc). unfold upd. destruct (Nat.eqb_spec e' (l_engine ld)) as [->|]; auto.
      + intros e'. unfold upd. destruct (Nat.eqb_spec e' (l_engine ld)) as [->|]; cbn; auto.
      + intros w' ld'. unfold upd. destruct (Nat.eqb_spec w' w) as [->|]; [discriminate|apply f_flagging0].
      + intros e'. unfold upd at 1. destruct (Nat.eqb_spec e' (l_engine ld)) as [->|Hne]; [discriminate|]. intros Hl. destruct (f_true0 e' Hl) as [?|(id' & H1 & H2 & H3)]; auto.
        right. exists id'. split; auto. split; auto. destruct H3 as [?|(w' & ld' & H3 & H4)]; auto. right. exists w', ld'. rewrite upd_other; auto. intros ->. rewrite Ew in H3. cbn in H3. congruence.
      + intros tr1 t' id' e' r' tr2 Etr Hlast Hres. destruct (f_false0 _ _ _ _ _ _ Etr Hlast Hres) as [H1 H2].
        unfold upd. destruct (Nat.eqb_spec e' (l_engine ld)) as [->|Hne]; auto. split.
        * intros t1 Ht1. assert (HO : ByCaller t1 = ByWorker w); [|discriminate]. apply (locks_excl s _ _ (l_engine ld) HL); auto. cbn. destruct (s_caller s t1); cbn in *; congruence.
        * intros _ Hp. destruct Hp. rewrite HB in Hlast. injection Hlast as <-. exact HPu.
    - apply flags_reset; auto.
    - apply flags_reset; auto.
  Qed.
End Fate.

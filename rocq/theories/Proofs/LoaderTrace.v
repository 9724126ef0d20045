(** * Lemmas about loading: the order of events *)
From Coq Require Import Sorted.
From Verif.Model Require Import Base ConvolutionEngine Loader.
From Verif.Spec Require Import Loading.
From Verif.Proofs Require Import LoaderProof LoaderFate LoaderMore.

Section Trace.
  Context {request conv : Type}.
  Variable build : request -> process_spec -> res conv.
  Variable workers : nat.
  Notation trace := (list (event request conv)).
  Notation state := (state request conv).
  Notation job := (job request).
  Notation load_move := (@load_move request conv build workers).
  Notation load_run := (@load_run request conv build workers).
  Notation all := (@all request conv build workers).
  Implicit Types (tr : trace) (s : state).
  Ltac moves m E := load_moves build workers m E.

  Lemma move_events s m s' x : load_move s m = Ok (s', x) -> x = [] \/ exists y, x = [y].
  Proof. intros E. moves m E; eauto. Qed.
  (** a prefix of the trace is the trace of a prefix *)
  Lemma run_prefix ms s s' tr1 tr2 : load_run s ms = Ok (s', tr1 ++ tr2) ->
    exists ms1 ms2 s1, ms = ms1 ++ ms2 /\ load_run s ms1 = Ok (s1, tr1) /\ load_run s1 ms2 = Ok (s', tr2).
  Proof.
    revert s tr1. induction ms as [|m ms IH]; intros s tr1 E.
    - cbn in E. injection E as <- E. symmetry in E. apply app_eq_nil in E as [-> ->]. exists [], [], s. auto.
    - destruct tr1 as [|y tr1]; [exists [], (m :: ms), s; auto|].
      cbn [Loader.load_run] in E. destruct (load_move s m) as [[s1 x]| |] eqn:E1; cbn [bind] in E; try discriminate.
      destruct (load_run s1 ms) as [[s2 z]| |] eqn:E2; cbn [bind] in E; try discriminate. injection E as -> E.
      destruct (move_events s m s1 x E1) as [->|[y' ->]].
      + cbn in E. subst z. destruct (IH s1 (y :: tr1) E2) as (ms1 & ms2 & s3 & -> & H1 & H2).
        exists (m :: ms1), ms2, s3. repeat split; auto. cbn [Loader.load_run]. rewrite E1. cbn [bind]. rewrite H1. reflexivity.
      + cbn in E. injection E as <- ->. destruct (IH s1 tr1 E2) as (ms1 & ms2 & s3 & -> & H1 & H2).
        exists (m :: ms1), ms2, s3. repeat split; auto. cbn [Loader.load_run]. rewrite E1. cbn [bind]. rewrite H1. reflexivity.
  Qed.

  (** ** The order of LoadIR calls *)
  Lemma began_in e tr id : In id (began e tr) <-> exists t r, In (Began t id e r) tr.
  Proof.
    unfold began. rewrite in_flat_map. split.
    - intros (x & Hx & Hi). destruct x; try easy. destruct (Nat.eqb_spec e0 e) as [->|]; [|easy]. destruct Hi as [<- | []]. eauto.
    - intros (t & r & H). eexists. split; [exact H|]. cbn. rewrite Nat.eqb_refl. now left.
  Qed.
  Lemma began_app e tr tr' : began e (tr ++ tr') = began e tr ++ began e tr'.
  Proof. apply flat_map_app. Qed.
  Lemma sorted_snoc l (n : nat) : StronglySorted lt l -> (forall k, In k l -> k < n) -> StronglySorted lt (l ++ [n]).
  Proof.
    induction 1 as [|a l H IH Ha]; intros Hn; cbn; [repeat constructor|]. constructor.
    - apply IH. intros k Hk. apply Hn. now right.
    - apply Forall_app. split; auto. constructor; [|constructor]. apply Hn. now left.
  Qed.
  Lemma sorted_last l (n k : nat) : StronglySorted lt l -> hd_error (rev l) = Some n -> In k l -> k <= n.
  Proof.
    destruct l as [|a l] using rev_ind; [easy|]. clear IHl. rewrite rev_app_distr. cbn. intros H [= ->] Hk.
    apply in_app_iff in Hk as [Hk|[-> | []]]; auto. clear -H Hk. induction l as [|b l IH]; [easy|]. cbn in H. apply StronglySorted_inv in H as [H1 H2].
    destruct Hk as [->|Hk]; auto. rewrite Forall_forall in H2. assert (k < n); [|lia]. apply H2. apply in_app_iff. right. now left.
  Qed.
  Lemma began_sorted_run ms tr s s' x : all tr s /\ (forall e, StronglySorted lt (began e tr)) -> load_run s ms = Ok (s', x) ->
    all (tr ++ x) s' /\ (forall e, StronglySorted lt (began e (tr ++ x))).
  Proof.
    apply (run_ind build workers (fun tr s => all tr s /\ (forall e, StronglySorted lt (began e tr)))).
    clear. intros tr s m s' x [HA H] E. split; [eapply all_move; eauto|]. intros e0. rewrite began_app.
    assert (Hx : began e0 x = [] \/ began e0 x = [s_next s]).
    { moves m E; auto. cbn. destruct (_ =? _); auto. }
    destruct Hx as [-> | ->]; [now rewrite app_nil_r|]. apply sorted_snoc; auto.
    intros k Hk. apply began_in in Hk as (t & r & Hk). destruct HA as (_ & _ & HF & _). now apply (f_began _ _ HF) in Hk.
  Qed.
  Lemma began_sorted ms s tr e : load_run load_new ms = Ok (s, tr) -> StronglySorted lt (began e tr).
  Proof. intros E. destruct (began_sorted_run ms [] _ _ _ (conj (all_new build workers) (fun _ => SSorted_nil lt)) E) as [_ H]. apply H. Qed.

  Lemma pushed_in_order ms s tr e : load_run load_new ms = Ok (s, tr) ->
    StronglySorted lt (pushed e tr) /\ forall id, In id (pushed e tr) -> In id (began e tr).
  Proof.
    intros E.
    assert (H : forall tr1 tr2, tr = tr1 ++ tr2 -> StronglySorted lt (pushed e tr1) /\ forall id, In id (pushed e tr1) -> In id (began e tr1)).
    { induction tr1 as [|y tr1 IH] using rev_ind; intros tr2 Etr.
      - split; [constructor|easy].
      - rewrite <- app_assoc in Etr. destruct (IH _ Etr) as [H1 H2]. pose proof Etr as Etr'. subst tr.
        destruct (run_prefix _ _ _ _ _ E) as (ms1 & ms2 & s1 & -> & E1 & E2). pose proof (began_sorted _ _ _ e E1) as HS.
        destruct (all_reached _ _ _ _ _ E) as ((_ & _ & HN) & _).
        unfold pushed in *. rewrite flat_map_app, began_app. cbn [flat_map]. rewrite app_nil_r.
        split.
        + destruct y; rewrite ?app_nil_r; auto. destruct (Nat.eqb_spec e0 e) as [->|]; [|rewrite ?app_nil_r; auto].
          destruct (n_order _ _ HN tr1 id e c tr2 eq_refl) as [Hl Hp]. apply sorted_snoc; auto. intros k Hk.
          assert (k <= id) by (apply (sorted_last _ _ _ HS Hl); auto). assert (k <> id); [|lia]. intros ->.
          apply Hp. apply in_flat_map in Hk as (x & Hx & Hk). destruct x; try easy. destruct (Nat.eqb_spec e0 e) as [->|]; [|easy].
          destruct Hk as [-> | []]. exists e, c0. auto.
        + intros id Hi. apply in_app_iff. apply in_app_iff in Hi as [Hi|Hi]; auto. left.
          destruct y; try easy. destruct (Nat.eqb_spec e0 e) as [->|]; [|easy]. destruct Hi as [-> | []].
          destruct (n_order _ _ HN tr1 id e c tr2 eq_refl) as [Hl _]. unfold last_began in Hl. apply in_rev. destruct (rev (began e tr1)); [easy|]. injection Hl as ->. now left. }
    apply (H tr []). now rewrite app_nil_r.
  Qed.

  Lemma returned_began_run ms tr s s' x : all tr s /\ (forall t id e, In (Returned t id e) tr -> exists t r, In (Began t id e r) tr) ->
    load_run s ms = Ok (s', x) -> all (tr ++ x) s' /\ (forall t id e, In (Returned t id e) (tr ++ x) -> exists t r, In (Began t id e r) (tr ++ x)).
  Proof.
    apply (run_ind build workers (fun tr s => all tr s /\ (forall t id e, In (Returned t id e) tr -> exists t r, In (Began t id e r) tr))).
    clear. intros tr s m s' x [HA H] E. split; [eapply all_move; eauto|]. intros t0 id0 e0 Hi.
    apply in_app_iff in Hi as [Hi|Hi].
    - destruct (H _ _ _ Hi) as (t & r & Hb). exists t, r. apply in_app_iff. auto.
    - destruct HA as (_ & _ & _ & _ & HO). moves m E; try easy; destruct Hi as [Hi|[]]; try discriminate. injection Hi as -> -> ->.
      destruct (o_call _ _ _ HO t0 e0 id0) as (t & r & Hb); [now rewrite Et|]. exists t, r. apply in_app_iff. auto.
  Qed.
  Lemma returned_began ms s tr t id e : load_run load_new ms = Ok (s, tr) -> In (Returned t id e) tr -> In id (began e tr).
  Proof.
    intros E H. apply began_in. destruct (returned_began_run ms [] _ _ _ (conj (all_new build workers) (fun _ _ _ (F : In _ []) => match F with end)) E) as [_ HR]. eauto.
  Qed.

  Lemma began_next ms s s' tr t id e r : load_run s ms = Ok (s', tr) -> In (Began t id e r) tr -> id < s_next s -> False.
  Proof.
    revert s tr. induction ms as [|m ms IH]; intros s tr E Hi Hid; cbn [Loader.load_run] in E.
    - injection E as <- <-. easy.
    - destruct (load_move s m) as [[s1 y]| |] eqn:E1; cbn [bind] in E; try discriminate.
      destruct (load_run s1 ms) as [[s2 z]| |] eqn:E2; cbn [bind] in E; try discriminate. injection E as <- <-.
      assert (Hm : s_next s <= s_next s1) by (clear -E1; moves m E1; cbn; auto).
      apply in_app_iff in Hi as [Hi|Hi]; [|apply (IH _ _ E2 Hi); lia].
      assert (id = s_next s); [|lia]. clear -E1 Hi. rename id into k, t into t0, e into e0, r into r0.
      moves m E1; try easy; destruct Hi as [Hi|[]]; try discriminate. now injection Hi.
  Qed.

  (** ** The events of one call *)
  Definition call_order tr s : Prop :=
    (forall tr1 t id e r tr2, tr = tr1 ++ Began t id e r :: tr2 -> In (Cancelled id e) tr2 \/ s_caller s t = CRemove e id r) /\
    (forall t id e r, In (Began t id e r) tr -> In (Returned t id e) tr \/ crit_id (s_caller s t) = Some (e, id)) /\
    (forall tr1 id e tr2 e', tr = tr1 ++ Queued id e :: tr2 -> ~ In (Cancelled id e') tr2) /\
    (forall tr1 t id e tr2 e', tr = tr1 ++ Returned t id e :: tr2 -> ~ In (Queued id e') tr2) /\
    (forall tr1 id e tr2, tr = tr1 ++ Cancelled id e :: tr2 -> last_began e tr1 = Some id).
  Lemma call_order_move tr s m s' x : all tr s -> call_order tr s -> load_move s m = Ok (s', x) -> call_order (tr ++ x) s'.
  Proof.
    intros HA (H1 & H2 & H3 & H4 & H5) E. pose proof (move_events s m s' x E) as Hx. destruct HA as ((HL & HP & HN) & _ & HF & _ & HO).
    assert (Kb : forall t id e r, In (Began t id e r) x -> s_caller s' t = CRemove e id r).
    { intros t0 id0 e0 r0 Hi. moves m E; try easy; destruct Hi as [Hi|[]]; try discriminate. injection Hi as -> <- -> ->. cbn. apply upd_same. }
    assert (Kc : forall id e, In (Cancelled id e) x -> exists t r, s_caller s t = CRemove e id r).
    { intros id0 e0 Hi. moves m E; try easy; destruct Hi as [Hi|[]]; try discriminate. injection Hi as -> ->. eauto. }
    assert (Kq : forall id e, In (Queued id e) x -> exists t r, s_caller s t = CAdd e id r).
    { intros id0 e0 Hi. moves m E; try easy; destruct Hi as [Hi|[]]; try discriminate. injection Hi as -> ->. eauto. }
    split; [|split; [|split; [|split]]].
    - intros tr1 t0 id0 e0 r0 tr2 Etr.
      assert (Hold : In (Began t0 id0 e0 r0) x /\ s_caller s' t0 = CRemove e0 id0 r0 \/ exists tr3, tr = tr1 ++ Began t0 id0 e0 r0 :: tr3 /\ tr2 = tr3 ++ x).
      { destruct Hx as [->|[y ->]].
        - right. exists tr2. rewrite !app_nil_r in *. auto.
        - apply snoc_split in Etr as [(-> & -> & E')|(l3 & -> & ->)]; [left|right; eauto]. subst y. split; [now left|]. apply Kb. now left. }
      destruct Hold as [[_ Hold]|(tr3 & -> & ->)]; auto.
      destruct (H1 _ _ _ _ _ _ eq_refl) as [Hc|Hc]; [left; apply in_app_iff; auto|].
      moves m E; auto; try (right; cbn; unfold upd; destruct (Nat.eqb_spec t0 t) as [->|]; [congruence|auto]; fail);
        cbn; unfold upd; destruct (Nat.eqb_spec t0 t) as [->|]; auto; rewrite Et in Hc; try discriminate.
      injection Hc as -> -> ->. left. apply in_app_iff. right. now left.
    - intros t0 id0 e0 r0 Hb. apply in_app_iff in Hb as [Hb|Hb].
      + destruct (H2 _ _ _ _ Hb) as [Hr|Hr]; [left; apply in_app_iff; auto|].
        moves m E; auto; cbn; unfold upd; destruct (Nat.eqb_spec t0 t) as [->|]; auto; rewrite Et in Hr; cbn in Hr; try discriminate; auto.
        injection Hr as -> ->. left. apply in_app_iff. right. now left.
      + right. moves m E; try easy; destruct Hb as [Hb|[]]; try discriminate. injection Hb as -> -> -> ->. cbn. now rewrite upd_same.
    - intros tr1 id0 e0 tr2 e1 Etr Hi. destruct Hx as [->|[y ->]]; [rewrite app_nil_r in Etr; now apply (H3 _ _ _ _ e1 Etr)|].
      apply snoc_split in Etr as [(-> & -> & E')|(l3 & -> & ->)]; [easy|]. apply in_app_iff in Hi as [Hi|[-> | []]]; [now apply (H3 _ _ _ _ e1 eq_refl)|].
      destruct (Kc id0 e1 (or_introl eq_refl)) as (t & r & Hc). apply (o_queued _ _ _ HO id0 e0 e1 t); [apply in_elt|now rewrite Hc].
    - intros tr1 t0 id0 e0 tr2 e1 Etr Hi. destruct Hx as [->|[y ->]]; [rewrite app_nil_r in Etr; now apply (H4 _ _ _ _ _ e1 Etr)|].
      apply snoc_split in Etr as [(-> & -> & E')|(l3 & -> & ->)]; [easy|]. apply in_app_iff in Hi as [Hi|[-> | []]]; [now apply (H4 _ _ _ _ _ e1 eq_refl)|].
      destruct (Kq id0 e1 (or_introl eq_refl)) as (t & r & Hc). apply (o_returned _ _ _ HO id0 e0 e1 t t0); [apply in_elt|now rewrite Hc].
    - intros tr1 id0 e0 tr2 Etr. destruct Hx as [->|[y ->]]; [rewrite app_nil_r in Etr; eauto|].
      apply snoc_split in Etr as [(-> & -> & E')|(l3 & -> & ->)]; [|eauto]. subst y.
      destruct (Kc id0 e0 (or_introl eq_refl)) as (t & r & Hc). apply (n_caller _ _ HN t). now rewrite Hc.
  Qed.
  Lemma call_order_run ms s tr : load_run load_new ms = Ok (s, tr) -> call_order tr s.
  Proof.
    intros E. apply (run_ind build workers (fun tr s => all tr s /\ call_order tr s)) with (tr := []) in E; [apply E| |].
    - intros tr0 s0 m s1 x [HA H] E0. split; [eapply all_move; eauto|eapply call_order_move; eauto].
    - split; [apply all_new|]. split; [intros [|? ?]; discriminate|]. split; [easy|]. repeat split; intros [|? ?]; discriminate.
  Qed.

  (** ** Cancelled loads *)
  Definition doomed (id : nat) s : Prop :=
    id < s_next s /\ (forall j, In j (s_jobs s) -> jid j = id -> j_stop j = true) /\
    (forall t e, taken (s_caller s t) <> Some (e, id)) /\ (forall w ld, pushing (s_worker s w) = Some ld -> l_id ld <> id).
  Lemma doomed_move tr s m s' x id : all tr s -> doomed id s -> load_move s m = Ok (s', x) ->
    doomed id s' /\ forall e c, ~ In (Pushed id e c) x.
  Proof.
    rename id into k. intros ((HL & HP & HN) & _) (H0 & H1 & H2 & H3) E. split.
    - assert (Hn : s_next s <= s_next s') by (moves m E; cbn; auto). split; [lia|]. split; [|split].
      + intros j Hj Hid.
        assert (HJ : (exists j', In j' (s_jobs s) /\ jid j' = jid j /\ (j_stop j' = true -> j_stop j = true)) \/ exists t e, taken (s_caller s t) = Some (e, jid j)).
        { moves m E; eauto; cbn in Hj.
          - apply in_remove_all in Hj as (_ & Hs & b & Hj). left. eexists. split; [exact Hj|]. split; [reflexivity|auto].
          - apply in_app_iff in Hj as [Hj|[<- | []]]; [eauto|]. right. exists t, e. now rewrite Et.
          - apply pick_spec in Ep as (l1 & l2 & Ej & ->); [|intros j' K1 K2; exact (proj1 (p_waiting _ _ _ HP j' K1 K2))].
            left. rewrite Ej. apply in_app_iff in Hj as [Hj|[<- |Hj]].
            + exists j. split; auto. apply in_app_iff. auto.
            + eexists. split; [apply in_elt|]. split; [reflexivity|]. auto.
            + exists j. split; auto. apply in_app_iff. cbn. auto.
          - destruct (pick_spec _ _ _ (fun j K1 K2 => proj1 (p_waiting _ _ _ HP j K1 K2)) Ep) as [-> _]. eauto.
          - apply in_finish in Hj as [Hj _]. eauto. }
        destruct HJ as [(j' & K1 & K2 & K3)|(t & e & K)]; [apply K3, H1; congruence|]. rewrite Hid in K. now destruct (H2 t e).
      + intros t0 e0. specialize (H2 t0 e0). moves m E; try exact H2; cbn; unfold upd; destruct (Nat.eqb_spec t0 t) as [->|]; try exact H2; cbn; try discriminate;
          try (rewrite Et in H2; exact H2). intros [= <- <-]. lia.
      + intros w0 ld0. specialize (H3 w0 ld0). moves m E; try exact H3; cbn; unfold upd; destruct (Nat.eqb_spec w0 w) as [->|]; try exact H3; cbn; try discriminate.
        intros [= <-] Hid. destruct (p_worker _ _ _ HP w ld) as [b Hb]; [now rewrite Ew|]. specialize (H1 _ Hb Hid). cbn in H1. subst b.
        enough (should_exit (l_id ld) (s_jobs s) = true) by congruence. apply existsb_exists. eexists. split; [exact Hb|]. cbn. now rewrite Nat.eqb_refl.
    - intros e0 c0 Hi. moves m E; try easy; destruct Hi as [Hi|[]]; try discriminate. injection Hi as Hid _ _. apply (H3 w ld); auto. now rewrite Ew.
  Qed.
  Lemma doomed_run ms tr s s' x id : all tr s -> doomed id s -> load_run s ms = Ok (s', x) ->
    doomed id s' /\ forall e c, ~ In (Pushed id e c) x.
  Proof.
    revert tr s x. induction ms as [|m ms IH]; intros tr s x HA HD E; cbn [Loader.load_run] in E.
    - injection E as <- <-. auto.
    - destruct (load_move s m) as [[s1 y]| |] eqn:E1; cbn [bind] in E; try discriminate.
      destruct (load_run s1 ms) as [[s2 z]| |] eqn:E2; cbn [bind] in E; try discriminate. injection E as <- <-.
      destruct (doomed_move tr s m s1 y id HA HD E1) as [HD1 Hy]. destruct (IH (tr ++ y) s1 z) as [HD2 Hz]; auto; [eapply all_move; eauto|].
      split; auto. intros e c Hi. apply in_app_iff in Hi as [Hi|Hi]; [now apply (Hy e c)|now apply (Hz e c)].
  Qed.
End Trace.

(** * Lemmas about loading: notifications, origins *)
From Verif.Model Require Import Base ConvolutionEngine Loader.
From Verif.Spec Require Import Loading.
From Verif.Proofs Require Import LoaderProof LoaderFate.

Section More.
  Context {request conv : Type}.
  Variable build : request -> process_spec -> res conv.
  Variable workers : nat.
  Notation trace := (list (event request conv)).
  Notation state := (state request conv).
  Notation job := (job request).
  Notation load_move := (@load_move request conv build workers).
  Notation load_run := (@load_run request conv build workers).
  Notation inv := (@inv request conv workers).
  Implicit Types (tr : trace) (s : state).
  Ltac moves m E := load_moves build workers m E.

  (** ** Notifications *)
  Definition emitting (c : caller request) : option nat := match c with CEmit e _ _ => Some e | _ => None end.
  Definition calling (k : worker request conv) : option nat := match k with WAsync l => Some (l_engine l) | _ => None end.
  Definition notices tr s : Prop := forall e, ~ In (ResetDone e true) tr ->
    (exists t, emitting (s_caller s t) = Some e) \/ (exists w, calling (s_worker s w) = Some e) \/
    In e (s_messages s) \/ last_notified e tr = n_loading (s_engine s e).
  Lemma notices_new : notices [] load_new.
  Proof. intros e _. right. right. right. reflexivity. Qed.
  Lemma notices_move tr s m s' x : notices tr s -> load_move s m = Ok (s', x) -> notices (tr ++ x) s'.
  Proof.
    intros H E. moves m E; rewrite ?app_nil_r; auto.
    all: intros e' Hr; specialize (H e').
    all: try (destruct H as [[t' H]|[[w' H]|[H|H]]]; [intros Hi; apply Hr; apply in_app_iff; auto|..]).
    all: try (destruct H as [[t' H]|[[w' H]|[H|H]]]; [exact Hr|..]).
    all: cbn; rewrite ?last_notified_snoc.
    all: try solve [left; exists t'; unfold upd; destruct (Nat.eqb_spec t' t) as [->|]; [rewrite Et in H; cbn in *; congruence|auto]].
    all: try solve [right; left; exists w'; unfold upd; destruct (Nat.eqb_spec w' w) as [->|]; [rewrite Ew in H; cbn in *; congruence|auto]].
    all: try solve [left; exists t'; auto].
    all: try solve [right; left; exists w'; auto].
    all: try solve [right; right; left; auto; apply in_app_iff; auto].
    all: try solve [right; right; right; unfold upd; auto; destruct (Nat.eqb_spec e' e) as [->|]; auto].
    all: try solve [right; right; right; unfold upd; auto; destruct (Nat.eqb_spec e' (l_engine ld)) as [->|]; auto].
    - destruct (Nat.eq_dec e' e) as [->|Hne].
      + left. exists t. now rewrite upd_same.
      + right. right. right. now rewrite upd_other.
    - destruct (Nat.eqb_spec e e') as [->|Hne]; [auto|]. left. exists t'. rewrite upd_other; auto. intros ->. rewrite Et in H. cbn in H. congruence.
    - destruct (Nat.eqb_spec e e') as [->|Hne]; auto.
    - destruct (Nat.eq_dec e' (l_engine ld)) as [->|Hne].
      + right. left. exists w. now rewrite upd_same.
      + right. right. right. now rewrite upd_other.
    - destruct (Nat.eq_dec w' w) as [->|Hne].
      + rewrite Ew in H. injection H as <-. right. right. left. apply in_app_iff. right. now left.
      + right. left. exists w'. now rewrite upd_other.
    - right. right. right. unfold upd. destruct (Nat.eqb_spec e' e) as [->|]; auto. cbn. rewrite H. destruct (n_loading (s_engine s e)); auto.
      destruct Hr. apply in_app_iff. right. now left.
    - right. right. right. unfold upd. destruct (Nat.eqb_spec e' e) as [->|]; auto. cbn. rewrite H. destruct (n_loading (s_engine s e)); auto.
      destruct Hr. apply in_app_iff. right. now left.
    - destruct (Nat.eqb_spec e e') as [->|Hne]; auto. rewrite Em in H. destruct H as [H|H]; auto. congruence.
    - destruct (Nat.eqb_spec e e') as [->|Hne]; auto.
  Qed.

  (** ** Where a convolver comes from *)
  Definition origin tr (ld : load request) : Prop := exists t tr1 tr2 tr3,
    tr = tr1 ++ Began t (l_id ld) (l_engine ld) (l_request ld) :: tr2 ++ Queued (l_id ld) (l_engine ld) :: tr3 /\
    last_prepared (l_engine ld) (tr1 ++ Began t (l_id ld) (l_engine ld) (l_request ld) :: tr2) = Some (l_spec ld).
  Definition request_of (c : caller request) : option (nat * nat * request) :=
    match c with
    | CIdle | CLock _ _ | CUnlock _ _ => None
    | CRemove e id r | CSpec e id r | CFlag e id r | CEmit e id r | CAdd e id r => Some (e, id, r)
    end.
  Definition built (k : worker request conv) : option (load request * conv) :=
    match k with WLock l c | WCheck l c | WPush l c => Some (l, c) | _ => None end.
  (** the load [id] began when its engine was prepared *)
  Definition in_time (id e : nat) tr : Prop := exists t r tr1 tr2, tr = tr1 ++ Began t id e r :: tr2 /\ last_prepared e tr1 <> None.
  Record origins tr s : Prop := {
    o_spec : forall e, n_spec (s_engine s e) = last_prepared e tr;
    o_request : forall t e id r, request_of (s_caller s t) = Some (e, id, r) -> In (Began t id e r) tr;
    o_job : forall j, In j (s_jobs s) -> origin tr (j_load j);
    o_built : forall w ld c, built (s_worker s w) = Some (ld, c) -> build (l_request ld) (l_spec ld) = Ok c;
    o_pushed : forall id e c, In (Pushed id e c) tr -> exists ld, l_id ld = id /\ l_engine ld = e /\ origin tr ld /\
      build (l_request ld) (l_spec ld) = Ok c;
    o_queued : forall id e e' t, In (Queued id e) tr -> taken (s_caller s t) <> Some (e', id);
    o_returned : forall id e e' t t', In (Returned t' id e) tr -> crit_id (s_caller s t) <> Some (e', id);
    o_over : forall t id e, In (Returned t id e) tr -> id < s_next s;
    o_unlock : forall t e id, s_caller s t = CUnlock e id -> in_time id e tr -> In (Queued id e) tr;
    o_done : forall t e id, In (Returned t id e) tr -> in_time id e tr -> In (Queued id e) tr;
    o_call : forall t e id, crit_id (s_caller s t) = Some (e, id) -> exists t r, In (Began t id e r) tr
  }.
  Lemma origin_app tr x ld : origin tr ld -> origin (tr ++ x) ld.
  Proof.
    intros (t & tr1 & tr2 & tr3 & -> & H). exists t, tr1, tr2, (tr3 ++ x). split; auto.
    rewrite <- !app_assoc. cbn. rewrite <- app_assoc. reflexivity.
  Qed.
  Lemma prepared_in e tr : last_prepared e tr <> None <-> exists p, In (Prepared e p) tr.
  Proof.
    unfold last_prepared. set (l := flat_map _ tr).
    assert (Hl : forall p, In p l <-> In (Prepared e p) tr).
    { intros p. unfold l. rewrite in_flat_map. split.
      - intros (x & Hx & H). destruct x; try easy. destruct (Nat.eqb_spec e0 e) as [->|]; [|easy]. now destruct H as [-> | []].
      - intros H. exists (Prepared e p). split; auto. rewrite Nat.eqb_refl. now left. }
    clearbody l. split.
    - destruct (rev l) as [|p k] eqn:E; [easy|]. intros _. exists p. apply Hl. apply in_rev. rewrite E. now left.
    - intros (p & H). apply Hl in H. apply in_rev in H. destruct (rev l); [easy|discriminate].
  Qed.
  Lemma in_time_app id e tr x : in_time id e tr -> in_time id e (tr ++ x).
  Proof. intros (t & r & tr1 & tr2 & -> & H). exists t, r, tr1, (tr2 ++ x). now rewrite <- app_assoc. Qed.
  Lemma in_time_snoc id e tr x : (forall t r, x <> Began t id e r) -> in_time id e (tr ++ [x]) -> in_time id e tr.
  Proof.
    intros Hx (t & r & tr1 & tr2 & E & H). apply snoc_split in E as [(-> & -> & E)|(l3 & -> & ->)].
    - now destruct (Hx t r).
    - exists t, r, tr1, l3. auto.
  Qed.
  Lemma in_time_prepared id e tr : in_time id e tr -> last_prepared e tr <> None.
  Proof. intros (t & r & tr1 & tr2 & -> & H). apply prepared_in in H as (p & H). apply prepared_in. exists p. apply in_app_iff. auto. Qed.

  Lemma origins_new : origins [] load_new.
  Proof. constructor; cbn; try easy. Qed.

  Lemma origins_move tr s m s' x : inv tr s -> flags tr s -> origins tr s -> load_move s m = Ok (s', x) -> origins (tr ++ x) s'.
  Proof.
    intros (HL & HP & HN) HF H E.
    assert (Hx : x = [] \/ exists y, x = [y]) by (moves m E; eauto).
    assert (HQ : forall id e, In (Queued id e) (tr ++ x) -> In (Queued id e) tr \/ exists t r, s_caller s t = CAdd e id r /\ s_caller s' t = CUnlock e id).
    { intros id0 e0 Hi. apply in_app_iff in Hi as [Hi|Hi]; auto. right. moves m E; try easy; destruct Hi as [Hi|[]]; try discriminate. injection Hi as <- <-. exists t, r. split; auto. cbn. apply upd_same. }
    assert (HR : forall id e t, In (Returned t id e) (tr ++ x) -> In (Returned t id e) tr \/ (s_caller s t = CUnlock e id /\ s_caller s' t = CIdle)).
    { intros id0 e0 t0 Hi. apply in_app_iff in Hi as [Hi|Hi]; auto. right. moves m E; try easy; destruct Hi as [Hi|[]]; try discriminate. injection Hi as <- <- <-. split; auto. cbn. apply upd_same. }
    assert (HB : forall id e t r, In (Began t id e r) x -> id = s_next s).
    { intros id0 e0 t0 r0 Hi. moves m E; try easy; destruct Hi as [Hi|[]]; try discriminate. injection Hi as <- <- <-. auto. }
    assert (HT : forall t e id, taken (s_caller s' t) = Some (e, id) -> taken (s_caller s t) = Some (e, id) \/ id = s_next s).
    { intros t0 e0 id0. moves m E; auto; cbn; unfold upd; destruct (Nat.eqb_spec t0 t) as [->|]; auto; rewrite ?Et; cbn; auto; try discriminate. intros [= <- <-]. auto. }
    assert (HC : forall t e id, crit_id (s_caller s' t) = Some (e, id) -> crit_id (s_caller s t) = Some (e, id) \/ id = s_next s).
    { intros t0 e0 id0. moves m E; auto; cbn; unfold upd; destruct (Nat.eqb_spec t0 t) as [->|]; auto; rewrite ?Et; cbn; auto; try discriminate. intros [= <- <-]. auto. }
    assert (Hsame : forall t t' e e' id, crit_id (s_caller s t) = Some (e, id) -> crit_id (s_caller s t') = Some (e', id) -> t = t').
    { intros t0 t1 e0 e1 id0 H0 H1. pose proof (n_caller _ _ HN _ _ _ H0) as L0. pose proof (n_caller _ _ HN _ _ _ H1) as L1.
      apply last_began_in in L0 as (? & ? & L0). apply last_began_in in L1 as (? & ? & L1). destruct (f_unique _ _ HF _ _ _ _ _ _ _ L0 L1) as [<- _].
      assert (HO : ByCaller t0 = ByCaller t1); [|now injection HO]. apply (locks_excl s _ _ e0 HL); cbn.
      - destruct (s_caller s t0); cbn in *; congruence.
      - destruct (s_caller s t1); cbn in *; congruence. }
    assert (Hnext : forall t e id, crit_id (s_caller s t) = Some (e, id) -> id < s_next s).
    { intros t0 e0 id0 H0. apply (n_caller _ _ HN) in H0. apply last_began_in in H0 as (? & ? & H0). now apply (f_began _ _ HF) in H0. }
    assert (Htc : forall (c : caller request) e id, taken c = Some (e, id) -> crit_id c = Some (e, id)) by (intros c ? ?; destruct c; cbn; congruence).
    assert (Hmono : s_next s <= s_next s') by (moves m E; cbn; auto).
    assert (Hlate : forall id e, id < s_next s -> in_time id e (tr ++ x) -> in_time id e tr).
    { intros id0 e0 Hid Hi. destruct Hx as [->|[y ->]]; [now rewrite app_nil_r in Hi|]. apply in_time_snoc in Hi; auto.
      intros t0 r0 ->. specialize (HB _ _ _ _ (or_introl eq_refl)). lia. }
    destruct H. constructor.
    - intros e0. moves m E; rewrite ?app_nil_r, ?last_prepared_snoc; auto; cbn; unfold upd; try (destruct (Nat.eqb_spec e0 e) as [->|]; auto);
        try (destruct (Nat.eqb_spec e0 (l_engine ld)) as [->|]; auto).
      all: cbn; rewrite ?Nat.eqb_refl; auto. destruct (Nat.eqb_spec e e0); [congruence|auto].
    - intros t0 e0 id0 r0 Hc. apply in_app_iff.
      assert (HA : request_of (s_caller s t0) = Some (e0, id0, r0) \/ In (Began t0 id0 e0 r0) x).
      { moves m E; auto; cbn in *; unfold upd in Hc; destruct (Nat.eqb_spec t0 t) as [->|]; auto; rewrite ?Et; cbn in *; auto; try discriminate.
        injection Hc as <- <- <-. auto. }
      destruct HA as [HA|HA]; auto.
    - intros j Hj.
      assert (HA : (exists j', In j' (s_jobs s) /\ j_load j' = j_load j) \/
        (exists t e id r p, s_caller s t = CAdd e id r /\ n_spec (s_engine s e) = Some p /\ x = [Queued id e] /\
           j_load j = {| l_id := id; l_engine := e; l_request := r; l_spec := p |})).
      { moves m E; eauto; cbn in Hj.
        - apply in_remove_all in Hj as (_ & _ & b & Hj). left. eexists. split; [exact Hj|]. reflexivity.
        - apply in_app_iff in Hj as [Hj|[<- | []]]; [eauto|]. right. exists t, e, id, r, p. cbn. auto.
        - apply pick_spec in Ep as (l1 & l2 & Ej & ->); [|intros j' H1 H2; exact (proj1 (p_waiting _ _ _ HP j' H1 H2))].
          left. rewrite Ej. apply in_app_iff in Hj as [Hj|[<- |Hj]].
          + exists j. split; auto. apply in_app_iff. auto.
          + eexists. split; [apply in_elt|]. reflexivity.
          + exists j. split; auto. apply in_app_iff. cbn. auto.
        - destruct (pick_spec _ _ _ (fun j H1 H2 => proj1 (p_waiting _ _ _ HP j H1 H2)) Ep) as [-> _]. eauto.
        - apply in_finish in Hj as [Hj _]. eauto. }
      destruct HA as [(j' & Hj' & <-)|(t & e & id & r & p & Et & Es & -> & ->)]; [apply origin_app; auto|].
      destruct (in_split _ _ (o_request0 t e id r ltac:(now rewrite Et))) as (tr1 & tr2 & Etr).
      exists t, tr1, tr2, []. cbn [l_id l_engine l_request l_spec]. rewrite Etr. rewrite <- app_assoc. split; [reflexivity|].
      rewrite <- Etr, <- o_spec0. exact Es.
    - intros w0 ld0 c0 Hc.
      assert (HA : built (s_worker s w0) = Some (ld0, c0) \/ build (l_request ld0) (l_spec ld0) = Ok c0).
      { moves m E; auto; cbn in *; unfold upd in Hc; destruct (Nat.eqb_spec w0 w) as [->|]; auto; rewrite ?Ew; cbn in *; auto; try discriminate. injection Hc as <- <-. auto. }
      destruct HA as [HA|HA]; auto.
      eauto.
    - intros id1 e1 c1 Hi. apply in_app_iff in Hi as [Hi|Hi].
      + destruct (o_pushed0 id1 e1 c1 Hi) as (ld & H1 & H2 & H3 & H4). exists ld. repeat split; auto. now apply origin_app.
      + moves m E; try easy; destruct Hi as [Hi|[]]; try discriminate. injection Hi as <- <- <-. exists ld. repeat split; auto.
        * apply origin_app. destruct (p_worker _ _ _ HP w ld) as [b Hb]; [now rewrite Ew|]. apply (o_job0 _ Hb).
        * apply (o_built0 w). now rewrite Ew.
    - intros id e e' t Hi Ht. destruct (HT _ _ _ Ht) as [Ht'|Hid].
      + destruct (HQ _ _ Hi) as [Hi'|(t0 & r & Et0 & Et1)]; [exact (o_queued0 _ _ _ _ Hi' Ht')|].
        assert (t = t0) as ->; [|rewrite Et1 in Ht; discriminate]. eapply Hsame; [eauto|]. rewrite Et0. reflexivity.
      + destruct (HQ _ _ Hi) as [Hi'|(t0 & r & Et0 & Et1)].
        * apply (f_queued _ _ HF) in Hi'. lia.
        * assert (id < s_next s); [|lia]. apply (Hnext t0 e). now rewrite Et0.
    - intros id e e' t t' Hi Ht. destruct (HC _ _ _ Ht) as [Ht'|Hid].
      + destruct (HR _ _ _ Hi) as [Hi'|[Et0 Et1]]; [exact (o_returned0 _ _ _ _ _ Hi' Ht')|].
        assert (t = t') as ->; [|rewrite Et1 in Ht; discriminate]. eapply Hsame; [eauto|]. rewrite Et0. reflexivity.
      + destruct (HR _ _ _ Hi) as [Hi'|[Et0 Et1]].
        * apply o_over0 in Hi'. lia.
        * assert (id < s_next s); [|lia]. apply (Hnext t' e). now rewrite Et0.
    - intros t id e Hi. enough (id < s_next s) by lia. destruct (HR _ _ _ Hi) as [Hi'|[Et0 _]]; [eauto|]. apply (Hnext t e). now rewrite Et0.
    - intros t0 e0 id0 Hc Hin. apply in_app_iff.
      assert (HA : (exists r, s_caller s t0 = CSpec e0 id0 r /\ n_spec (s_engine s e0) = None) \/ s_caller s t0 = CUnlock e0 id0 \/ In (Queued id0 e0) x).
      { moves m E; auto; cbn in *; unfold upd in Hc; destruct (Nat.eqb_spec t0 t) as [->|]; auto; try discriminate; injection Hc as <- <-; eauto. }
      destruct HA as [(r & HA & HA')|[HA|HA]]; auto.
      + exfalso. apply Hlate in Hin; [|apply (Hnext t0 e0); now rewrite HA]. apply in_time_prepared in Hin. rewrite <- o_spec0 in Hin. auto.
      + left. apply (o_unlock0 t0); auto. apply Hlate in Hin; auto. apply (Hnext t0 e0); now rewrite HA.
    - intros t0 e0 id0 Hi Hin. apply in_app_iff. destruct (HR _ _ _ Hi) as [Hi'|[Et0 _]].
      + left. apply (o_done0 t0); auto. apply Hlate in Hin; eauto.
      + left. apply (o_unlock0 t0); auto. apply Hlate in Hin; auto. apply (Hnext t0 e0); now rewrite Et0.
    - intros t0 e0 id0 Hc.
      assert (HA : crit_id (s_caller s t0) = Some (e0, id0) \/ exists t r, In (Began t id0 e0 r) x).
      { moves m E; auto; cbn in *; unfold upd in Hc; destruct (Nat.eqb_spec t0 t) as [->|]; auto; rewrite ?Et; cbn in *; auto; try discriminate.
        injection Hc as <- <-. eauto. }
      destruct HA as [HA|(t & r & HA)].
      + destruct (o_call0 _ _ _ HA) as (t & r & Hi). exists t, r. apply in_app_iff. auto.
      + exists t, r. apply in_app_iff. auto.
  Qed.

  (** ** All schedules *)
  Definition all tr s : Prop := inv tr s /\ fate tr s /\ flags tr s /\ notices tr s /\ origins tr s.
  Lemma all_new : all [] load_new.
  Proof. split; [apply inv_new|]. split; [apply fate_new|]. split; [apply flags_new|]. split; [apply notices_new|apply origins_new]. Qed.
  Lemma all_move tr s m s' x : all tr s -> load_move s m = Ok (s', x) -> all (tr ++ x) s'.
  Proof.
    intros (H1 & H2 & H3 & H4 & H5) E. split; [eapply inv_move; eauto|]. split; [eapply fate_move; eauto|].
    split; [eapply flags_move; eauto|]. split; [eapply notices_move; eauto|eapply origins_move; eauto].
  Qed.
  Lemma all_run ms tr s s' x : all tr s -> load_run s ms = Ok (s', x) -> all (tr ++ x) s'.
  Proof. apply (run_ind build workers all). apply all_move. Qed.
  Lemma all_reached ms s tr : load_run load_new ms = Ok (s, tr) -> all tr s.
  Proof. intros E. apply (all_run ms [] _ _ _ all_new E). Qed.
End More.

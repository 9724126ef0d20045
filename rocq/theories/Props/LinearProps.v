(** * C66: the queue is linearizable *)
From Verif.Model Require Import Base VisitorQueue.
From Verif.Spec Require Import Fifo Linear.
From Verif.Proofs Require Import Lists QueueProof.

Section Sim.
  Context {T : Type}.
  Variable N : nat.
  Hypothesis HN : 2 <= N.

  (** the state of the atomic queue, read off the real one and the log *)
  Definition published (q : queue T) (l : list (event T)) : list T :=
    accepted l ++ match q_push q with PRet true => in_progress l | _ => [] end.
  Definition busy (q : queue T) : nat :=
    match q_service q with
    | SLoop todo n => n - length todo
    | SVisit _ todo n => n - length todo - 1
    | SFin1 n => n
    | SFin2 v => fifo_num_ready N (q_start q) v
    | _ => 0
    end.
  Definition called (l : list (event T)) (a : apush T) : Prop := exists c, a = PushCalled c /\ snd (pushes [] None l) = Some c.
  Definition push_sim (q : queue T) (l : list (event T)) (a : apush T) : Prop :=
    match q_push q with
    | PIdle => a = PushIdle
    | PFree2 v => if fifo_free_space N v (q_end q) =? 0 then a = PushDone false else called l a
    | PRet b => a = PushDone b
    | _ => called l a
    end.
  Definition service_sim (q : queue T) : aservice :=
    match q_service q with
    | SIdle => ServiceIdle
    | SReady1 | SReady2 _ => ServiceCalled
    | SPrep1 n | SPrep2 n _ => Serving n
    | SLoop todo _ => Serving (length todo)
    | SVisit _ todo _ => Serving (S (length todo))
    | SFin1 _ | SFin2 _ => Serving 0
    | SRet => ServiceDone
    end.
  Record sim (q : queue T) (l : list (event T)) (a : aqueue T) : Prop := {
    m_waiting : a_waiting a = skipn (length (visited l)) (published q l);
    m_busy : a_busy a = busy q;
    m_push : push_sim q l (a_push a);
    m_service : a_service a = service_sim q
  }.

  Lemma inv_published q l A B pub rel h : inv N q l A B pub rel h -> published q l = pub.
  Proof.
    intros HI. pose proof (i_push _ _ _ _ _ _ _ _ HI) as H. unfold published, accepted, in_progress.
    destruct (q_push q) as [| | | | | | | |[|]]; cbn in H; try (destruct H as [-> _]; now rewrite app_nil_r).
    destruct H as (x & -> & ->). reflexivity.
  Qed.
  Lemma inv_busy q l A B pub rel h : inv N q l A B pub rel h -> rel + busy q = length (visited l) /\ length (visited l) <= length pub.
  Proof.
    intros HI. pose proof (i_service _ _ _ _ _ _ _ _ HI) as H. pose proof (i_h _ _ _ _ _ _ _ _ HI) as Hh.
    pose proof (i_rel _ _ _ _ _ _ _ _ HI) as Hr. pose proof (i_start _ _ _ _ _ _ _ _ HI) as Hs. pose proof (i_room _ _ _ _ _ _ _ _ HI) as Hm.
    assert (L : visited l = map Some (firstn h pub) -> length (visited l) = h) by (intros ->; rewrite map_length, firstn_length; lia).
    unfold busy. destruct (q_service q) as [| |v|n|n v|todo n|c todo n|n|v|]; cbn in H.
    1-5, 10: destruct H as (<- & H & _) || destruct H as (<- & H); apply L in H; lia.
    - destruct H as (a & b & c & d & e & ->). rewrite map_length, seq_length. apply L in b. lia.
    - destruct H as (a & b & d & e & f & ->). rewrite map_length, seq_length. apply (f_equal (@length _)) in b.
      rewrite app_length, map_length, firstn_length in b. cbn in b. lia.
    - destruct H as (a & b & d & e). apply L in a. lia.
    - destruct H as (a & b & d & ->). apply L in a. rewrite Hs, ready_ok by lia. lia.
  Qed.

  Lemma one_step (a b : aqueue T) (e : list (event T)) : atomic (N - 1) a e b -> atomic_run (N - 1) a e b.
  Proof. intros H. rewrite <- (app_nil_r e). eapply Run_cons; eauto. constructor. Qed.
  Lemma visited_snoc (l : list (event T)) e : (forall c, e <> EvVisit c) -> visited (l ++ [e]) = visited l.
  Proof. intros H. rewrite visited_app. destruct e; cbn; try apply app_nil_r. now elim (H c). Qed.
  Lemma pushes_snoc (l : list (event T)) e : (forall c, e <> EvPush c) -> (forall b, e <> EvPushed b) -> pushes [] None (l ++ [e]) = pushes [] None l.
  Proof. intros H1 H2. rewrite pushes_app. destruct (pushes [] None l). destruct e; cbn; auto; [now elim (H1 c)|now elim (H2 b)]. Qed.

  Lemma simulate q l A B pub rel h a m : inv N q l A B pub rel h -> sim q l a ->
    exists q' e a', q_move N q m = Ok (q', e) /\ (exists A' B' pub' rel' h', inv N q' (l ++ e) A' B' pub' rel' h') /\
      atomic_run (N - 1) a e a' /\ sim q' (l ++ e) a'.
  Proof.
    intros HI HS. destruct (move_inv N HN q l A B pub rel h m HI) as (q' & e & A' & B' & pub' & rel' & h' & E & HI' & _).
    exists q', e. pose proof (inv_published _ _ _ _ _ _ _ HI) as EP. destruct (inv_busy _ _ _ _ _ _ _ HI) as [EB LB].
    enough (X : exists a', atomic_run (N - 1) a e a' /\ sim q' (l ++ e) a') by (destruct X as (a' & X); exists a'; split; [exact E|]; split; [eauto 8|exact X]).
    destruct (inv_busy _ _ _ _ _ _ _ HI') as [EB' LB'].
    destruct HS as [S1 S2 S3 S4]. destruct a as [aw ab ap asv]. cbn [a_waiting a_busy a_push a_service] in *.
    assert (Hcap : length aw + ab = length pub - rel) by (rewrite S1, S2, EP, skipn_length; lia).
    destruct HI as [H1 H2 H3 H4 H5 H6 H7 H8 H9 H10 H11 H12].
    destruct m as [c| | |]; cbn [q_move] in E.
    - (* PushCommand is called *)
      destruct (q_push q) eqn:Epc.
      2-9: injection E as <- <-; exists {| a_waiting := aw; a_busy := ab; a_push := ap; a_service := asv |};
           (split; [constructor|]); rewrite app_nil_r; constructor; cbn; auto.
      injection E as <- <-. unfold push_sim in S3. rewrite Epc in S3. subst ap.
      exists {| a_waiting := aw; a_busy := ab; a_push := PushCalled c; a_service := asv |}. split; [apply one_step; constructor|].
      constructor; cbn [a_waiting a_busy a_push a_service]; auto.
      + rewrite visited_snoc by discriminate. rewrite S1. f_equal. unfold published, accepted. cbn [q_push]. rewrite Epc, pushes_app.
        destruct (pushes [] None l). reflexivity.
      + unfold push_sim. cbn [q_push]. exists c. split; auto. rewrite pushes_app. destruct (pushes [] None l). reflexivity.
    - (* Service is called *)
      destruct (q_service q) eqn:Epc.
      2-10: injection E as <- <-; exists {| a_waiting := aw; a_busy := ab; a_push := ap; a_service := asv |};
           (split; [constructor|]); rewrite app_nil_r; constructor; cbn; auto.
      injection E as <- <-. unfold service_sim in S4. rewrite Epc in S4. subst asv.
      exists {| a_waiting := aw; a_busy := ab; a_push := ap; a_service := ServiceCalled |}. split; [apply one_step; constructor|].
      assert (EPu : pushes [] None (l ++ [EvService]) = pushes [] None l) by (apply pushes_snoc; discriminate).
      constructor; cbn [a_waiting a_busy a_push a_service]; auto.
      + rewrite visited_snoc by discriminate. rewrite S1. f_equal. unfold published, accepted, in_progress. now rewrite EPu.
      + rewrite S2. unfold busy. now rewrite Epc.
      + unfold push_sim, called in *. cbn [with_service q_push q_end]. now rewrite EPu.
    - (* a step of PushCommand *)
      unfold push_step in E. unfold push_sim in S3. destruct (q_push q) as [| |v| |v|w|n|v|b] eqn:Epc; cbn [push_inv] in H9.
      + injection E as <- <-. exists {| a_waiting := aw; a_busy := ab; a_push := ap; a_service := asv |}.
        split; [constructor|]. rewrite app_nil_r. constructor; cbn; auto. unfold push_sim. now rewrite Epc.
      + (* the beginning is read: a push that finds the queue full takes place here *)
        injection E as <- <-. rewrite app_nil_r. destruct S3 as (c & -> & Ec).
        assert (EF : fifo_free_space N (q_start q) (q_end q) = N - (length pub - rel) - 1).
        { unfold fifo_free_space. rewrite H2, H3, ready_ok by lia. reflexivity. }
        destruct (Nat.eqb_spec (fifo_free_space N (q_start q) (q_end q)) 0) as [Z|Z].
        * exists {| a_waiting := aw; a_busy := ab; a_push := PushDone false; a_service := asv |}.
          split; [apply one_step; constructor; lia|]. constructor; cbn [a_waiting a_busy a_push a_service]; auto.
          -- rewrite S1. unfold published. cbn [with_push q_push]. now rewrite Epc.
          -- unfold push_sim. cbn [with_push q_push q_end]. now rewrite Z.
        * exists {| a_waiting := aw; a_busy := ab; a_push := PushCalled c; a_service := asv |}.
          split; [constructor|]. constructor; cbn [a_waiting a_busy a_push a_service]; auto.
          -- rewrite S1. unfold published. cbn [with_push q_push]. now rewrite Epc.
          -- unfold push_sim. cbn [with_push q_push q_end]. destruct (Nat.eqb_spec (fifo_free_space N (q_start q) (q_end q)) 0); [contradiction|]. exists c. auto.
      + injection E as <- <-. rewrite app_nil_r. exists {| a_waiting := aw; a_busy := ab; a_push := ap; a_service := asv |}.
        split; [constructor|]. destruct (fifo_free_space N v (q_end q) =? 0); constructor; cbn [a_waiting a_busy a_push a_service]; auto;
          rewrite S1; unfold published; cbn [with_push q_push]; now rewrite Epc.
      + injection E as <- <-. rewrite app_nil_r. exists {| a_waiting := aw; a_busy := ab; a_push := ap; a_service := asv |}.
        split; [constructor|]. constructor; cbn [a_waiting a_busy a_push a_service]; auto. rewrite S1; unfold published; cbn [with_push q_push]; now rewrite Epc.
      + injection E as <- <-. rewrite app_nil_r. exists {| a_waiting := aw; a_busy := ab; a_push := ap; a_service := asv |}.
        split; [constructor|]. constructor; cbn [a_waiting a_busy a_push a_service]; auto. rewrite S1; unfold published; cbn [with_push q_push]; now rewrite Epc.
      + destruct H9 as (_ & _ & _ & _ & ->). cbn [Nat.eqb negb] in E. 
        destruct (set (q_storage q) (length pub mod N) (q_cmd q)) as [st| |]; cbn [bind] in E; try discriminate. injection E as <- <-.
        rewrite app_nil_r. exists {| a_waiting := aw; a_busy := ab; a_push := ap; a_service := asv |}.
        split; [constructor|]. constructor; cbn [a_waiting a_busy a_push a_service]; auto. rewrite S1; unfold published; cbn [with_push q_push]; now rewrite Epc.
      + injection E as <- <-. rewrite app_nil_r. exists {| a_waiting := aw; a_busy := ab; a_push := ap; a_service := asv |}.
        split; [constructor|]. constructor; cbn [a_waiting a_busy a_push a_service]; auto. rewrite S1; unfold published; cbn [with_push q_push]; now rewrite Epc.
      + (* the end is stored: a successful push takes place here *)
        injection E as <- <-. rewrite app_nil_r. destruct S3 as (c & -> & Ec). destruct H9 as (a & _ & b & _).
        exists {| a_waiting := aw ++ [c]; a_busy := ab; a_push := PushDone true; a_service := asv |}.
        split; [apply one_step; constructor; lia|]. constructor; cbn [a_waiting a_busy a_push a_service]; auto; [|reflexivity].
        rewrite S1. unfold published, in_progress, accepted in *. cbn [q_push]. rewrite Epc in *. rewrite app_nil_r in *. rewrite Ec, EP, skipn_app.
        replace (length (visited l) - length pub) with 0 by lia. reflexivity.
      + injection E as <- <-. subst ap.
        exists {| a_waiting := aw; a_busy := ab; a_push := PushIdle; a_service := asv |}.
        split; [apply one_step; constructor|]. constructor; cbn [a_waiting a_busy a_push a_service]; auto; [|reflexivity].
        rewrite visited_snoc by discriminate. rewrite S1. f_equal. unfold published, in_progress, accepted in *. cbn [with_push q_push]. rewrite Epc, pushes_app.
        destruct (pushes [] None l) as [acc cur]. cbn [fst snd] in *. destruct b; cbn; [|reflexivity].
        destruct H9 as (x & -> & _). now rewrite app_nil_r.
    - (* a step of Service *)
      unfold service_step in E. unfold service_sim in S4. destruct (q_service q) as [| |v|n|n v|todo n|c todo n|n|v|] eqn:Epc; cbn [service_inv] in H8.
      + injection E as <- <-. exists {| a_waiting := aw; a_busy := ab; a_push := ap; a_service := asv |}.
        split; [constructor|]. rewrite app_nil_r. constructor; cbn; auto. unfold service_sim. now rewrite Epc.
      + injection E as <- <-. rewrite app_nil_r. exists {| a_waiting := aw; a_busy := ab; a_push := ap; a_service := asv |}.
        split; [constructor|]. constructor; cbn [a_waiting a_busy a_push a_service]; auto. unfold busy in *. now rewrite Epc in *.
      + (* the end is read: the number of commands is fixed here *)
        injection E as <- <-. rewrite app_nil_r. destruct H8 as (a & b & ->). subst asv.
        exists {| a_waiting := aw; a_busy := ab; a_push := ap; a_service := Serving (length aw) |}.
        split; [apply one_step; constructor|]. unfold busy in *. rewrite Epc in *.
        constructor; cbn [a_waiting a_busy a_push a_service]; auto.
        unfold service_sim. cbn [with_service q_service]. f_equal. rewrite H2, H3, ready_ok by lia. lia.
      + injection E as <- <-. rewrite app_nil_r. exists {| a_waiting := aw; a_busy := ab; a_push := ap; a_service := asv |}.
        split; [constructor|]. constructor; cbn [a_waiting a_busy a_push a_service]; auto. unfold busy in *. now rewrite Epc in *.
      + injection E as <- <-. rewrite app_nil_r. exists {| a_waiting := aw; a_busy := ab; a_push := ap; a_service := asv |}.
        destruct H8 as (a & b & c & d & ->).
        destruct (prepare_read_ok N ltac:(lia) rel (length pub) n) as [E1 E2]; try lia. 
        assert (EL : length (fifo_indices (fifo_prepare_read N (q_start q) (q_end q) n)) = n) by (rewrite H2, H3, E1, map_length, seq_length; reflexivity).
        assert (EN : fifo_blocks (fifo_prepare_read N (q_start q) (q_end q) n) = n) by (rewrite H2, H3; exact E2).
        split; [constructor|]. constructor; cbn [a_waiting a_busy a_push a_service]; auto.
        * rewrite S2. unfold busy. rewrite Epc. cbn [with_service q_service]. rewrite EL, EN. lia.
        * unfold service_sim. cbn [with_service q_service]. now rewrite EL.
      + destruct H8 as (a & b & c & d & e0 & f). destruct todo as [|i todo].
        * injection E as <- <-. rewrite app_nil_r. exists {| a_waiting := aw; a_busy := ab; a_push := ap; a_service := asv |}.
          split; [constructor|]. constructor; cbn [a_waiting a_busy a_push a_service]; auto. rewrite S2. unfold busy. rewrite Epc. cbn. lia.
        * destruct (get (q_storage q) i) as [x| |]; cbn [bind] in E; try discriminate.
          destruct (set (q_storage q) i None) as [st| |]; cbn [bind] in E; try discriminate. injection E as <- <-.
          rewrite app_nil_r. exists {| a_waiting := aw; a_busy := ab; a_push := ap; a_service := asv |}.
          split; [constructor|]. constructor; cbn [a_waiting a_busy a_push a_service]; auto. rewrite S2. unfold busy. rewrite Epc. cbn. lia.
      + (* a command is handed to the visitor *)
        injection E as <- <-. destruct H8 as (a & b & d & e0 & f & g). subst asv.
        assert (EPu : pushes [] None (l ++ [EvVisit c]) = pushes [] None l) by (apply pushes_snoc; discriminate).
        assert (EV : visited (l ++ [EvVisit c]) = visited l ++ [c]) by (rewrite visited_app; reflexivity).
        assert (EPb : published (with_service q (SLoop todo n)) (l ++ [EvVisit c]) = pub).
        { rewrite <- EP. unfold published, accepted, in_progress. now rewrite EPu. }
        assert (LV : S (length (visited l)) = h). { apply (f_equal (@length _)) in b. rewrite app_length, map_length, firstn_length in b. cbn in b. lia. }
        destruct (nth_error pub (length (visited l))) as [x|] eqn:Ex; [|apply nth_error_None in Ex; lia].
        assert (EC : c = Some x).
        { rewrite <- LV, (firstn_S_nth pub _ x Ex), map_app in b. apply app_inj_tail in b. apply b. }
        assert (ES : skipn (length (visited l)) pub = x :: skipn (S (length (visited l))) pub).
        { clear - Ex. revert Ex. generalize (length (visited l)). induction pub as [|y p IH]; intros [|k] Ex; cbn in *; try discriminate.
          - now injection Ex as ->.
          - now apply IH. }
        rewrite EP, ES in S1. subst aw c.
        exists {| a_waiting := skipn (S (length (visited l))) pub; a_busy := S ab; a_push := ap; a_service := Serving (length todo) |}.
        split; [apply one_step; constructor|]. constructor; cbn [a_waiting a_busy a_push a_service]; auto.
        * rewrite EPb, EV, app_length. cbn [length]. now rewrite Nat.add_1_r.
        * rewrite S2. unfold busy. rewrite Epc. cbn [with_service q_service]. 
          apply (f_equal (@length _)) in g. rewrite map_length, seq_length in g. lia.
        * unfold push_sim, called in *. cbn [with_service q_push q_end]. now rewrite EPu.
      + injection E as <- <-. rewrite app_nil_r. exists {| a_waiting := aw; a_busy := ab; a_push := ap; a_service := asv |}.
        split; [constructor|]. destruct H8 as (a & b & d & e0). constructor; cbn [a_waiting a_busy a_push a_service]; auto. rewrite S2. unfold busy. rewrite Epc. cbn [with_service q_service q_start].
        rewrite H2, advance_ok, ready_ok by lia. lia.
      + (* the beginning is stored: the slots are free again *)
        injection E as <- <-. rewrite app_nil_r. subst asv. exists {| a_waiting := aw; a_busy := 0; a_push := ap; a_service := ServiceDone |}.
        split; [apply one_step; constructor|]. constructor; cbn [a_waiting a_busy a_push a_service]; auto.
      + injection E as <- <-. subst asv.
        assert (EPu : pushes [] None (l ++ [EvServiced]) = pushes [] None l) by (apply pushes_snoc; discriminate).
        exists {| a_waiting := aw; a_busy := ab; a_push := ap; a_service := ServiceIdle |}.
        split; [apply one_step; constructor|]. constructor; cbn [a_waiting a_busy a_push a_service]; auto.
        * rewrite visited_snoc by discriminate. rewrite S1. f_equal. unfold published, accepted, in_progress. now rewrite EPu.
        * rewrite S2. unfold busy. now rewrite Epc.
        * unfold push_sim, called in *. cbn [with_service q_push q_end]. now rewrite EPu.
  Qed.

  Lemma atomic_run_app (a b c : aqueue T) (e1 e2 : list (event T)) : atomic_run (N - 1) a e1 b -> atomic_run (N - 1) b e2 c -> atomic_run (N - 1) a (e1 ++ e2) c.
  Proof.
    intros H1 H2. induction H1 as [|x e y es z S R IH]; auto. rewrite <- app_assoc. eapply Run_cons; eauto.
  Qed.
  Lemma simulate_run : forall ms q l A B pub rel h a, inv N q l A B pub rel h -> sim q l a ->
    exists q' es a', q_run N q ms = Ok (q', es) /\ atomic_run (N - 1) a es a' /\ sim q' (l ++ es) a'.
  Proof.
    induction ms as [|m ms IH]; intros q l A B pub rel h a HI HS; cbn [q_run].
    - exists q, [], a. rewrite app_nil_r. split; auto. split; [constructor|auto].
    - destruct (simulate q l A B pub rel h a m HI HS) as (q1 & e & a1 & E & (A1 & B1 & p1 & r1 & h1 & HI1) & R1 & S1).
      destruct (IH q1 (l ++ e) A1 B1 p1 r1 h1 a1 HI1 S1) as (q2 & es & a2 & E2 & R2 & S2).
      rewrite E. cbn [bind]. rewrite E2. cbn [bind]. exists q2, (e ++ es), a2. split; auto. split; [eapply atomic_run_app; eauto|].
      now rewrite app_assoc.
  Qed.
End Sim.

(** Whatever the interleaving of the single steps of the pushing and of the servicing thread, what can be seen
    from outside (calls, results, visits, in this order) is a run of a queue on which every push takes place in one
    instant, during its call, is accepted exactly if fewer than [size - 1] commands are waiting or being handled at that
    instant, and on which every Service fixes in one instant how many commands it handles. *)
Theorem C66_linearizable : forall T size (schedule : list (move T)), 2 <= size ->
  exists q log a, q_run size (q_init size) schedule = Ok (q, log) /\ atomic_run (size - 1) a_init log a.
Proof.
  intros T N ms HN. destruct (simulate_run N HN ms (q_init N) [] 0 0 [] 0 0 a_init) as (q & es & a & E & R & _).
  - apply inv_init; auto.
  - constructor; reflexivity.
  - eauto.
Qed.
(** When nobody is inside the queue, its contents are those of the atomic queue. *)
Theorem C66_contents : forall T size (schedule : list (move T)) q log, 2 <= size ->
  q_run size (q_init size) schedule = Ok (q, log) -> q_push q = PIdle -> q_service q = SIdle ->
  exists a, atomic_run (size - 1) a_init log a /\ a_busy a = 0 /\ a_push a = PushIdle /\ a_service a = ServiceIdle /\
    accepted log = flat_map (fun c => match c with Some c => [c] | None => [] end) (visited log) ++ a_waiting a /\
    fifo_num_ready size (q_start q) (q_end q) = length (a_waiting a).
Proof.
  intros T N ms q log HN E Hp Hs. destruct (run_inv N HN ms (q_init N) [] 0 0 [] 0 0 (inv_init N HN)) as (q1 & l1 & A & B & pub & rel & h & E1 & HI).
  rewrite E in E1. injection E1 as <- <-. cbn [app] in HI.
  destruct (simulate_run N HN ms (q_init N) [] 0 0 [] 0 0 a_init) as (q2 & es & a & E2 & R & S); [now apply inv_init|constructor; reflexivity|].
  rewrite E in E2. injection E2 as <- <-. cbn [app] in S. destruct S as [S1 S2 S3 S4]. exists a. split; auto.
  pose proof (inv_published N _ _ _ _ _ _ _ HI) as EP. destruct (inv_busy N HN _ _ _ _ _ _ _ HI) as [EB LB].
  destruct HI as [H1 H2 H3 H4 H5 H6 H7 H8 H9 H10 H11 H12].
  unfold busy, push_sim, service_sim in *. rewrite Hp, Hs in *. split; auto. split; auto. split; auto.
  cbn [service_inv] in H8. destruct H8 as [-> H8]. rewrite S1, EP. split.
  - cbn in H9. destruct H9 as [H9 _]. unfold accepted. rewrite H9, H8, map_length, firstn_length, Nat.min_l by lia.
    rewrite <- (firstn_skipn rel pub) at 1. f_equal. clear. induction (firstn rel pub) as [|x p IH]; cbn; congruence.
  - rewrite H2, H3, ready_ok, skipn_length by lia. lia.
Qed.
(** Two pushes into a queue of size 2 (one place): the second one begins after the first command was taken out but
    before its place is free, and is rejected; the atomic queue does the same. *)
Example C66_example :
  match q_run (T := nat) 2 (q_init 2) ([CallPush 7] ++ repeat StepPush 8 ++ [CallService] ++ repeat StepService 6 ++ [CallPush 8] ++ repeat StepPush 3 ++
                                       repeat StepService 4 ++ [CallPush 9] ++ repeat StepPush 8) with
  | Ok (q, log) => log = [EvPush 7; EvPushed true; EvService; EvVisit (Some 7); EvPush 8; EvPushed false; EvServiced; EvPush 9; EvPushed true]
  | _ => False
  end.
Proof. vm_compute. reflexivity. Qed.
Print Assumptions C66_linearizable.
Print Assumptions C66_contents.

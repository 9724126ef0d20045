(** * Which thread destroys convolvers *)
From Verif.Model Require Import Base Arith Juce Float32 SmoothedValue Convolver ConvolutionEngine.
From Verif.Spec Require Import Transform Signal Engine.
From Verif.Proofs Require Import Lists EngineProof EngineInv.

Section Room.
  Context {A : arith} (I : conv_if A).
  Notation engine := (engine I).
  Notation held := (held I).

  (** occupied places of the notification queue *)
  Definition room (e : engine) : nat := length (e_notes I e) + e_note_busy I e.
  (** what is added to the log: nothing destroyed by the caller *)
  Definition clean (e e' : engine) : Prop := exists d, e_log I e' = e_log I e ++ d /\ destroyed_by Caller d = [].

  Lemma clean_refl e e' : e_log I e' = e_log I e -> clean e e'.
  Proof. intros H. exists []. now rewrite app_nil_r. Qed.
  Lemma by_app t a b : destroyed_by t (a ++ b) = destroyed_by t a ++ destroyed_by t b.
  Proof. apply flat_map_app. Qed.
  Lemma clean_trans a b c : clean a b -> clean b c -> clean a c.
  Proof.
    intros (d1 & L1 & X1) (d2 & L2 & X2). exists (d1 ++ d2). now rewrite L2, L1, app_assoc, by_app, X1, X2.
  Qed.

  Lemma act_room e a : clean e (act I e a) /\ room (act I e a) <= room e.
  Proof.
    destruct a as [h| |]; cbn [act].
    - destruct (_ <? _); (split; [eexists; split; [reflexivity|reflexivity]|unfold room; ecbn; lia]).
    - unfold room. destruct (e_notes I e) as [|n t] eqn:En; ecbn.
      + split; [now apply clean_refl|]. rewrite En. cbn. lia.
      + split; [|cbn; lia]. eexists. split; [reflexivity|]. now destruct n.
    - split; [now apply clean_refl|]. unfold room. ecbn. lia.
  Qed.
  Lemma acts_room l : forall e, clean e (acts I l e) /\ room (acts I l e) <= room e.
  Proof.
    unfold acts. induction l as [|a l IH]; intros e; cbn [fold_left]; [split; [now apply clean_refl|lia]|].
    destruct (act_room e a) as [C1 R1]. destruct (IH (act I e a)) as [C2 R2]. split; [eapply clean_trans; eauto|lia].
  Qed.
  Lemma interrupt_room e : clean e (interrupt I e) /\ room (interrupt I e) <= room e.
  Proof.
    unfold interrupt. destruct (e_env I e) as [|l t]; [split; [now apply clean_refl|lia]|].
    apply (acts_room l (set_env I t e)).
  Qed.
  Lemma push_note_room n e : room e < queue_capacity -> clean e (push_note I n e) /\ room (push_note I n e) <= S (room e).
  Proof.
    intros H. unfold push_note. destruct (interrupt_room e) as [C R]. unfold room in H, R.
    rewrite (proj2 (Nat.ltb_lt _ _)) by lia. split; auto. unfold room. ecbn. rewrite app_length. cbn [length]. lia.
  Qed.
  Lemma begin_fade_room e e' : eng_begin_fade I e = Ok e' -> clean e e' /\ room e' = room e.
  Proof.
    unfold eng_begin_fade. destruct (e_fade I e); [|discriminate]. destruct (e_bounds I e); [|discriminate].
    destruct (fade_of _ _ _) as [[s n]| |]; cbn [bind]; intros H; try discriminate. injection H as <-.
    split; [now apply clean_refl|reflexivity].
  Qed.
  Lemma ready_room e h e' : room e < queue_capacity -> eng_ready I e h = Ok e' -> clean e e' /\ room e' <= S (room e).
  Proof.
    intros HR. unfold eng_ready. destruct (e_conv I e) as [c|] eqn:Ec.
    2:{ intros H. injection H as <-. split; [now apply clean_refl|]. unfold room. ecbn. lia. }
    set (e1 := match e_pending I e with Some p => _ | None => e end).
    assert (H1 : clean e e1 /\ room e1 <= S (room e)).
    { unfold e1. destruct (e_pending I e) as [p|] eqn:Ep; [|split; [now apply clean_refl|lia]].
      apply (push_note_room (Some p) (set_slots I (Some c) (e_fade I e) None e)). exact HR. }
    clearbody e1. destruct H1 as [C R]. destruct (e_fade I e1) as [f|] eqn:Ef; intros H.
    - injection H as <-. split; auto.
    - apply begin_fade_room in H. destruct H as [C2 R2]. change (room e' = room e1) in R2. split; [|lia].
      eapply clean_trans; [exact C|]. destruct C2 as (d & L & X). exists d. auto.
  Qed.
  Lemma service_n_room : forall n e e', room e + n <= queue_capacity -> eng_service_n I n e = Ok e' ->
    clean e e' /\ room e' <= room e + n.
  Proof.
    induction n as [|n IH]; intros e e' HR H; cbn [eng_service_n] in H.
    - injection H as <-. split; [now apply clean_refl|lia].
    - destruct (interrupt_room e) as [C R]. set (e1 := interrupt I e) in *. clearbody e1. cbv zeta in H.
      destruct (e_commands I e1) as [|h t] eqn:Ec; [discriminate|].
      destruct (eng_ready I _ h) as [e2| |] eqn:E2; cbn [bind] in H; try discriminate.
      apply ready_room in E2; [|unfold room in *; ecbn; lia]. destruct E2 as [C2 R2].
      change (room e2 <= S (room e1)) in R2. apply IH in H; [|lia]. destruct H as [C3 R3]. split; [|lia].
      eapply clean_trans; [exact C|]. eapply clean_trans; [|exact C3]. destruct C2 as (d & L & X). exists d. auto.
  Qed.
  Lemma service_room e e' : room e + length (e_commands I e) <= queue_capacity -> eng_service I e = Ok e' ->
    clean e e' /\ room e' <= room e + length (e_commands I e).
  Proof.
    intros HR. unfold eng_service. destruct (eng_service_n _ _ _) as [e1| |] eqn:E1; cbn [bind]; intros H; try discriminate.
    apply service_n_room in E1; auto. destruct E1 as [C1 R1]. destruct (interrupt_room e1) as [C2 R2].
    set (e2 := interrupt I e1) in *. clearbody e2. injection H as <-.
    change (clean e e2 /\ room e2 <= room e + length (e_commands I e)). split; [eapply clean_trans; eauto|lia].
  Qed.

  Ltac step H := match type of H with
    | bind ?a _ = Ok _ => let E := fresh "E" in let v := fresh "r" in destruct a as [v| |] eqn:E; cbn [bind] in H; try discriminate
    end.
  Ltac step2 H c o := match type of H with
    | bind ?a _ = Ok _ => let E := fresh "E" in destruct a as [[c o]| |] eqn:E; cbn [bind] in H; try discriminate
    end.
  Lemma process_room e out e' o' : room e + length (e_commands I e) < queue_capacity -> eng_process I e out = Ok (e', o') ->
    clean e e'.
  Proof.
    intros HR. unfold eng_process. intros H. step H. apply service_room in E; [|lia]. destruct E as [C R].
    eapply clean_trans; [exact C|]. clear C. destruct (e_fade I r) eqn:Ef.
    - step2 H e2 o2.
      assert (HB : clean r e2 /\ room e2 = room r).
      { destruct (e_strategy I r).
        - unfold eng_in_out in E. destruct (sm_smoothing _); step2 E c o1; destruct (blk_multiply_by o1 _) as [o3 so];
            injection E as <- <-; (split; [now apply clean_refl|reflexivity]).
        - unfold eng_crossfade in E. do 3 step E. step2 E c o1. step2 E f fb.
          destruct (blk_multiply_by o1 _) as [o3 so]. destruct (blk_multiply_by fb _) as [fb2 si]. step E. step E.
          injection E as <- <-. split; [now apply clean_refl|reflexivity]. }
      destruct HB as [C2 R2]. eapply clean_trans; [exact C2|].
      destruct (sm_smoothing _); cbn [bind] in H; [injection H as <- <-; now apply clean_refl|].
      step H. injection H as <- <-. clear E C2 Ef. revert E0. unfold eng_finish.
      destruct (push_note_room (e_conv I e2) (set_slots I None (e_fade I e2) (e_pending I e2) e2)) as [C3 _].
      { change (room e2 < queue_capacity). lia. }
      set (e3 := push_note I _ _) in *. clearbody e3. cbv zeta. ecbn.
      assert (C4 : clean e2 e3) by (destruct C3 as (d & L & X); exists d; auto).
      destruct (e_pending I e3); intros H.
      + apply begin_fade_room in H. destruct H as [C5 _]. eapply clean_trans; [exact C4|]. destruct C5 as (d & L & X). exists d. auto.
      + injection H as <-. destruct C4 as (d & L & X). exists d. auto.
    - step2 H c o2. injection H as <- <-. now apply clean_refl.
  Qed.
End Room.

(** * Ownership and scheduling in the engine *)
From Coq Require Import Permutation.
From Verif.Model Require Import Base Arith Juce Float32 SmoothedValue Convolver ConvolutionEngine.
From Verif.Spec Require Import Transform Signal Engine.
From Verif.Proofs Require Import Lists.

Section Own.
  Context {A : arith} (I : conv_if A).
  Notation engine := (engine I).
  Notation held := (held I).
  Variable x : nat.

  Definition cnt (l : list nat) : nat := count_occ Nat.eq_dec l x.
  Lemma cnt_app a b : cnt (a ++ b) = cnt a + cnt b.
  Proof. apply count_occ_app. Qed.
  Lemma cnt_nil : cnt [] = 0. Proof. reflexivity. Qed.

  Definition oc (o : option held) : nat := cnt (slot_ids o).
  (** how often [x] is owned or destroyed; how often it was handed over *)
  Definition have (e : engine) : nat :=
    oc (e_conv I e) + oc (e_fade I e) + oc (e_pending I e) + cnt (map (h_id I) (e_commands I e)) +
    cnt (flat_map slot_ids (e_notes I e)) + cnt (destroyed (e_log I e)).
  Definition got (e : engine) : nat := cnt (handed_over (e_log I e)).
  Definition bal (e e' : engine) : Prop := got e' + have e = got e + have e'.

  Lemma destroyed_app a b : destroyed (a ++ b) = destroyed a ++ destroyed b.
  Proof. apply flat_map_app. Qed.
  Lemma handed_app a b : handed_over (a ++ b) = handed_over a ++ handed_over b.
  Proof. apply flat_map_app. Qed.
  Lemma destroyed_destroy t (o : option held) : destroyed (destroy I t o) = slot_ids o.
  Proof. destruct o; reflexivity. Qed.
  Lemma handed_destroy t (o : option held) : handed_over (destroy I t o) = [].
  Proof. destruct o; reflexivity. Qed.

  Ltac cntr := cbn [app eng_set_fade_time eng_reset_fade set_slots set_smooth set_strategy set_buffer set_bounds set_commands set_notes set_env add_log
    e_conv e_fade e_pending e_in e_out e_buffer e_bounds e_strategy e_commands e_cmd_busy e_notes e_note_busy e_env e_log];
    unfold oc;
    rewrite ?map_app, ?flat_map_app, ?destroyed_app, ?handed_app, ?cnt_app, ?destroyed_destroy, ?handed_destroy;
    cbn [map flat_map slot_ids app destroyed handed_over]; rewrite ?app_nil_r, ?cnt_nil.
  Ltac bal_tac := unfold bal, got, have, oc; cntr; try lia.

  Lemma cnt_cons i (l : list nat) : cnt (i :: l) = cnt [i] + cnt l.
  Proof. change (i :: l) with ([i] ++ l). apply cnt_app. Qed.

  Lemma act_bal e a : bal e (act I e a).
  Proof.
    destruct a as [h| |]; cbn [act].
    - destruct (_ <? _); bal_tac.
    - destruct (e_notes I e) as [|n t] eqn:En; [unfold bal; lia|]. bal_tac. rewrite En. cbn [flat_map]. rewrite cnt_app. lia.
    - bal_tac.
  Qed.
  Lemma bal_refl e : bal e e. Proof. unfold bal. lia. Qed.
  Lemma bal_trans a b c : bal a b -> bal b c -> bal a c. Proof. unfold bal. lia. Qed.
  Lemma acts_bal l e : bal e (acts I l e).
  Proof.
    unfold acts. revert e. induction l as [|a l IH]; intros e; [apply bal_refl|].
    eapply bal_trans; [apply act_bal|apply IH].
  Qed.
  Lemma interrupt_bal e : bal e (interrupt I e).
  Proof.
    unfold interrupt. destruct (e_env I e) as [|l t]; [apply bal_refl|].
    eapply bal_trans; [|apply acts_bal]. bal_tac.
  Qed.

  (** the slots are only touched by the caller *)
  Lemma act_slots e a : e_conv I (act I e a) = e_conv I e /\ e_fade I (act I e a) = e_fade I e /\
    e_pending I (act I e a) = e_pending I e /\ e_in I (act I e a) = e_in I e /\ e_out I (act I e a) = e_out I e /\
    e_buffer I (act I e a) = e_buffer I e /\ e_bounds I (act I e a) = e_bounds I e /\ e_strategy I (act I e a) = e_strategy I e /\
    e_cmd_busy I (act I e a) = e_cmd_busy I e.
  Proof.
    destruct a as [h| |]; cbn [act]; [destruct (_ <? _)|destruct (e_notes I e)|]; repeat split.
  Qed.
  Lemma acts_slots l : forall e, e_conv I (acts I l e) = e_conv I e /\ e_fade I (acts I l e) = e_fade I e /\
    e_pending I (acts I l e) = e_pending I e /\ e_in I (acts I l e) = e_in I e /\ e_out I (acts I l e) = e_out I e /\
    e_buffer I (acts I l e) = e_buffer I e /\ e_bounds I (acts I l e) = e_bounds I e /\ e_strategy I (acts I l e) = e_strategy I e /\
    e_cmd_busy I (acts I l e) = e_cmd_busy I e.
  Proof.
    unfold acts. induction l as [|a l IH]; intros e; [repeat split|]. cbn [fold_left].
    destruct (IH (act I e a)) as (H1 & H2 & H3 & H4 & H5 & H6 & H7 & H8 & H9).
    destruct (act_slots e a) as (G1 & G2 & G3 & G4 & G5 & G6 & G7 & G8 & G9).
    rewrite H1, H2, H3, H4, H5, H6, H7, H8, H9. auto 10.
  Qed.
  Lemma interrupt_slots e : e_conv I (interrupt I e) = e_conv I e /\ e_fade I (interrupt I e) = e_fade I e /\
    e_pending I (interrupt I e) = e_pending I e /\ e_in I (interrupt I e) = e_in I e /\ e_out I (interrupt I e) = e_out I e /\
    e_buffer I (interrupt I e) = e_buffer I e /\ e_bounds I (interrupt I e) = e_bounds I e /\ e_strategy I (interrupt I e) = e_strategy I e /\
    e_cmd_busy I (interrupt I e) = e_cmd_busy I e.
  Proof.
    unfold interrupt. destruct (e_env I e) as [|l t]; [repeat split|]. exact (acts_slots l (set_env I t e)).
  Qed.
  Lemma push_note_slots n e : e_conv I (push_note I n e) = e_conv I e /\ e_fade I (push_note I n e) = e_fade I e /\
    e_pending I (push_note I n e) = e_pending I e /\ e_in I (push_note I n e) = e_in I e /\ e_out I (push_note I n e) = e_out I e /\
    e_buffer I (push_note I n e) = e_buffer I e /\ e_bounds I (push_note I n e) = e_bounds I e /\ e_strategy I (push_note I n e) = e_strategy I e /\
    e_cmd_busy I (push_note I n e) = e_cmd_busy I e.
  Proof.
    unfold push_note. destruct (interrupt_slots e) as (G1 & G2 & G3 & G4 & G5 & G6 & G7 & G8 & G9).
    destruct (_ <? _); cbn; auto 10.
  Qed.

  Lemma push_note_bal n e : got (push_note I n e) + (have e + oc n) = got e + have (push_note I n e).
  Proof.
    unfold push_note. pose proof (interrupt_bal e) as HB.
    set (e1 := interrupt I e) in *. clearbody e1.
    destruct (_ <? _); revert HB; bal_tac.
  Qed.

  Lemma begin_fade_bal e e' : eng_begin_fade I e = Ok e' -> bal e e'.
  Proof.
    unfold eng_begin_fade. destruct (e_fade I e); [|discriminate]. destruct (e_bounds I e); [|discriminate].
    destruct (fade_of _ _ _) as [[s n]| |]; cbn [bind]; intros H; try discriminate. injection H as <-. bal_tac.
  Qed.

  Lemma ready_bal e h e' : eng_ready I e h = Ok e' -> got e' + (have e + oc (Some h)) = got e + have e'.
  Proof.
    unfold eng_ready. destruct (e_conv I e) as [c|] eqn:Ec.
    2:{ intros H. injection H as <-. bal_tac. rewrite Ec. cbn. lia. }
    set (e1 := match e_pending I e with Some p => _ | None => e end).
    assert (H1 : got e1 + have e = got e + have e1 /\ e_pending I e1 = None).
    { unfold e1. destruct (e_pending I e) as [p|] eqn:Ep.
      - destruct (push_note_slots (Some p) (set_slots I (Some c) (e_fade I e) None e)) as (_ & _ & G & _).
        split; [|now rewrite G].
        pose proof (push_note_bal (Some p) (set_slots I (Some c) (e_fade I e) None e)) as HB.
        set (e2 := push_note _ _ _) in *. clearbody e2. revert HB. unfold got, have. cntr. rewrite Ec, Ep. cbn. lia.
      - split; [lia|auto]. }
    clearbody e1. destruct H1 as [HB Hp].
    destruct (e_fade I e1) as [f|] eqn:Ef; intros H.
    - injection H as <-. revert HB. unfold got, have. cntr. rewrite Ef, Hp. cbn. lia.
    - apply begin_fade_bal in H. revert HB H. unfold bal, got, have. cntr. rewrite Ef, Hp. cbn. lia.
  Qed.

  Lemma service_n_bal : forall n e e', eng_service_n I n e = Ok e' -> bal e e'.
  Proof.
    induction n as [|n IH]; intros e e' H; cbn [eng_service_n] in H.
    - injection H as <-. apply bal_refl.
    - pose proof (interrupt_bal e) as HB. set (e1 := interrupt I e) in *. clearbody e1. cbv zeta in H.
      destruct (e_commands I e1) as [|h t] eqn:Ec; [discriminate|].
      destruct (eng_ready I _ h) as [e2| |] eqn:E2; cbn [bind] in H; try discriminate.
      apply ready_bal in E2. apply IH in H. revert E2 H HB. unfold bal, got, have. cntr. rewrite Ec. cbn [map].
      rewrite (cnt_cons (h_id I h) (map (h_id I) t)). lia.
  Qed.
  Lemma service_bal e e' : eng_service I e = Ok e' -> bal e e'.
  Proof.
    unfold eng_service. destruct (eng_service_n _ _ _) as [e1| |] eqn:E1; cbn [bind]; intros H; try discriminate.
    injection H as <-. apply service_n_bal in E1. pose proof (interrupt_bal e1) as HB. revert E1 HB.
    set (e2 := interrupt I e1). clearbody e2. bal_tac.
  Qed.

  Lemma proc_ids h b h' o : proc I h b = Ok (h', o) -> slot_ids h' = slot_ids h.
  Proof.
    destruct h as [h|]; cbn [proc]; intros H; [|now injection H as <- <-].
    destruct (cv_process _ _ _) as [[c o']| |]; cbn [bind] in H; try discriminate. now injection H as <- <-.
  Qed.

  Ltac step H := match type of H with
    | bind ?a _ = Ok _ => let E := fresh "E" in let v := fresh "r" in destruct a as [v| |] eqn:E; cbn [bind] in H; try discriminate
    end.

  Ltac step2 H c o := match type of H with
    | bind ?a _ = Ok _ => let E := fresh "E" in destruct a as [[c o]| |] eqn:E; cbn [bind] in H; try discriminate
    end.

  Lemma crossfade_bal e out e' o' : eng_crossfade I e out = Ok (e', o') -> bal e e' /\ e_pending I e' = e_pending I e.
  Proof.
    unfold eng_crossfade. intros H. do 3 step H. step2 H c o1. step2 H f fb.
    destruct (blk_multiply_by o1 _) as [o2 so]. destruct (blk_multiply_by fb _) as [fb2 si]. step H. step H.
    injection H as <- <-. apply proc_ids in E2. apply proc_ids in E3. split; [|reflexivity].
    bal_tac. rewrite E2, E3. lia.
  Qed.
  Lemma in_out_bal e out e' o' : eng_in_out I e out = Ok (e', o') -> bal e e' /\ e_pending I e' = e_pending I e.
  Proof.
    unfold eng_in_out. intros H. destruct (sm_smoothing _); step2 H c o1;
      destruct (blk_multiply_by o1 _) as [o2 so]; injection H as <- <-; apply proc_ids in E; split; auto; bal_tac; rewrite E; lia.
  Qed.
  Lemma finish_bal e e' : eng_finish I e = Ok e' -> bal e e'.
  Proof.
    unfold eng_finish.
    destruct (push_note_slots (e_conv I e) (set_slots I None (e_fade I e) (e_pending I e) e)) as (G1 & G2 & G3 & _).
    pose proof (push_note_bal (e_conv I e) (set_slots I None (e_fade I e) (e_pending I e) e)) as HB.
    set (e1 := push_note I _ _) in *. clearbody e1. cbv zeta.
    unfold eng_reset_fade. cbn [set_smooth set_slots e_pending].
    cbn [set_slots e_conv e_fade e_pending] in G1, G2, G3.
    destruct (e_pending I e1) as [p|] eqn:Ep; intros H.
    - apply begin_fade_bal in H. revert HB H. unfold bal, got, have. cntr. rewrite G1, G2, Ep, <- G3. cbn. lia.
    - injection H as <-. revert HB. unfold bal, got, have. cntr. rewrite G1, G2, Ep, <- G3. cbn. lia.
  Qed.
  Lemma process_bal e out e' o' : eng_process I e out = Ok (e', o') -> bal e e'.
  Proof.
    unfold eng_process. intros H. step H. apply service_bal in E. eapply bal_trans; [exact E|]. clear E.
    destruct (e_fade I r) eqn:Ef.
    - step2 H e2 o2.
      assert (HB : bal r e2) by (destruct (e_strategy I r); [apply in_out_bal in E|apply crossfade_bal in E]; tauto).
      eapply bal_trans; [exact HB|]. destruct (sm_smoothing _); cbn [bind] in H.
      + injection H as <- <-. apply bal_refl.
      + step H. injection H as <- <-. now apply finish_bal.
    - step2 H c o2. injection H as <- <-. apply proc_ids in E. bal_tac. rewrite E, Ef. cbn. lia.
  Qed.
  Lemma reset_bal e e' : eng_reset I e = Ok e' -> bal e e'.
  Proof.
    unfold eng_reset. intros H. step H. apply service_bal in E.
    assert (HB : bal e r). { revert E. unfold eng_reset_fade. bal_tac. }
    clear E. eapply bal_trans; [exact HB|]. clear HB. injection H as <-.
    cbn [set_buffer e_pending e_fade e_conv].
    destruct (e_pending I r) as [p|] eqn:Ep, (e_fade I r) as [f|] eqn:Ef; cbn [add_log set_slots set_buffer e_conv].
    - bal_tac; rewrite Ep, Ef; cbn [slot_ids h_id]; rewrite ?cnt_nil; lia.
    - bal_tac; rewrite Ep, Ef; cbn [slot_ids h_id]; rewrite ?cnt_nil; lia.
    - bal_tac; rewrite Ep, Ef; cbn [slot_ids h_id]; rewrite ?cnt_nil; lia.
    - destruct (e_conv I r) as [c|] eqn:Ec; bal_tac; rewrite Ep, Ef, ?Ec; cbn [slot_ids h_id]; rewrite ?cnt_nil; lia.
  Qed.
  Lemma clear_bal e e' : eng_clear I e = Ok e' -> bal e e'.
  Proof.
    unfold eng_clear. intros H. step H. apply reset_bal in E. injection H as <-. revert E. bal_tac.
  Qed.
  Lemma prepare_bal e s e' : eng_prepare I e s = Ok e' -> bal e e'.
  Proof. unfold eng_prepare. intros H. step H. apply reset_bal in H. revert H. bal_tac. Qed.

  Lemma run_bal : forall l e e' outs, eng_run I e l = Ok (e', outs) -> bal e e'.
  Proof.
    induction l as [|o l IH]; intros e e' outs H; cbn [eng_run] in H.
    - injection H as <- <-. apply bal_refl.
    - step2 H e1 x1. step2 H e2 x2. injection H as <- <-.
      apply IH in E0. eapply bal_trans; [|exact E0]. clear E0.
      destruct o; cbn [eng_step] in E.
      + step E. injection E as <- <-. eapply prepare_bal; eauto.
      + step2 E e3 o3. injection E as <- <-. eapply process_bal; eauto.
      + step E. injection E as <- <-. eapply reset_bal; eauto.
      + step E. injection E as <- <-. eapply clear_bal; eauto.
      + injection E as <- <-. apply acts_bal.
  Qed.
End Own.

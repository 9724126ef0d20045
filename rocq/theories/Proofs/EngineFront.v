(** * What each function of the engine does to the slots and the fades *)
From Verif.Model Require Import Base Arith Juce Float32 SmoothedValue Convolver ConvolutionEngine.
From Verif.Spec Require Import Transform Signal Engine.
From Verif.Proofs Require Import Lists Blocks FFTProof FadeProof SmoothProof EngineProof EngineInv.

Lemma newest_app a b : newest (a ++ b) = match newest b with Some i => Some i | None => newest a end.
Proof. unfold newest. rewrite rev_app_distr. destruct (rev b); reflexivity. Qed.
Lemma newest_1 i : newest [i] = Some i. Proof. reflexivity. Qed.
Lemma newest_None l : newest l = None <-> l = [].
Proof.
  unfold newest. split; [|now intros ->]. destruct (rev l) eqn:E; [|discriminate]. intros _.
  rewrite <- (rev_involutive l), E. reflexivity.
Qed.
Lemma latest_app c a b : latest c (a ++ b) = latest (latest c a) b.
Proof. revert c. induction a as [|x a IH]; intros c; [reflexivity|]. destruct x; cbn [app latest]; apply IH. Qed.

Section Front.
  Context {A : arith} (I : conv_if A).
  Notation engine := (engine I).
  Notation held := (held I).

  (** the part of the state only the caller uses *)
  Record front : Type := {
    f_conv : option held; f_fade : option held; f_pend : option held;
    f_in : smooth A; f_out : smooth A; f_strat : fade_strategy
  }.
  Definition front_of (e : engine) : front :=
    {| f_conv := e_conv I e; f_fade := e_fade I e; f_pend := e_pending I e;
       f_in := e_in I e; f_out := e_out I e; f_strat := e_strategy I e |}.

  (** strategy and length of the fade to a convolver *)
  Definition fade_len (b : bounds) (h : held) : fade_strategy * Z :=
    match cv_fade I (h_cv I h) with
    | kCrossfade => if (max_crossfade_ir_length b <=? cv_samples I (h_cv I h))%Z then (kInOut, in_out_fade_length b)
                    else (kCrossfade, Z.max (lower_fade_bound b) (Z.min (upper_fade_bound b) (wanted_length (cv_samples I (h_cv I h)))))
    | kInOut => (kInOut, in_out_fade_length b)
    end.
  (** begin the fade to [h] *)
  Definition start (b : bounds) (h : held) (F : front) : front :=
    {| f_conv := f_conv F; f_fade := Some h; f_pend := None;
       f_in := sm_set_target true (sm_reset (snd (fade_len b h)) (f_in F));
       f_out := sm_set_target false (sm_reset (snd (fade_len b h)) (f_out F));
       f_strat := fst (fade_len b h) |}.
  (** receive [h] *)
  Definition take (b : bounds) (F : front) (h : held) : front :=
    match f_conv F with
    | None => {| f_conv := Some h; f_fade := f_fade F; f_pend := f_pend F; f_in := f_in F; f_out := f_out F; f_strat := f_strat F |}
    | Some _ =>
        match f_fade F with
        | Some _ => {| f_conv := f_conv F; f_fade := f_fade F; f_pend := Some h; f_in := f_in F; f_out := f_out F; f_strat := f_strat F |}
        | None => start b h F
        end
    end.
  Definition takes (b : bounds) (l : list held) (F : front) : front := fold_left (take b) l F.
  (** the fade has ended *)
  Definition fin (b : bounds) (F : front) : front :=
    let F1 := {| f_conv := f_fade F; f_fade := None; f_pend := None;
                 f_in := sm_set false (f_in F); f_out := sm_set true (f_out F); f_strat := f_strat F |} in
    match f_pend F with Some p => start b p F1 | None => F1 end.

  (** what happened in the queues: convolvers delivered meanwhile *)
  Definition adds (e e' : engine) (news : list held) : Prop :=
    (exists d, e_log I e' = e_log I e ++ d /\
       forall x, latest x d = match newest (map (h_id I) news) with Some i => Some i | None => x end) /\
    (no_loads e -> news = [] /\ no_loads e').
  Lemma adds_refl e e' : e_log I e' = e_log I e -> e_env I e' = e_env I e -> adds e e' [].
  Proof.
    intros H1 H2. split; [exists []; rewrite app_nil_r; auto|]. intros H. split; auto. unfold no_loads. now rewrite H2.
  Qed.
  Lemma adds_trans a b c n1 n2 : adds a b n1 -> adds b c n2 -> adds a c (n1 ++ n2).
  Proof.
    intros [(d1 & L1 & X1) N1] [(d2 & L2 & X2) N2]. split.
    - exists (d1 ++ d2). split; [now rewrite L2, L1, app_assoc|]. intros x. rewrite latest_app, X2, X1, map_app, newest_app.
      destruct (newest (map (h_id I) n2)); auto.
    - intros H. destruct (N1 H) as [-> H1]. destruct (N2 H1) as [-> H2]. auto.
  Qed.
  Lemma adds_log e e' d : e_log I e' = e_log I e ++ d -> e_env I e' = e_env I e -> (forall x, latest x d = x) -> adds e e' [].
  Proof.
    intros H1 H2 H3. split; [exists d; split; auto; intros; now rewrite H3|]. intros H. split; auto. unfold no_loads. now rewrite H2.
  Qed.
  Lemma latest_destroy t (o : option held) x : latest x (destroy I t o) = x.
  Proof. destruct o; reflexivity. Qed.

  Lemma acts_adds l : forall e, exists news, e_commands I (acts I l e) = e_commands I e ++ news /\
    (exists d, e_log I (acts I l e) = e_log I e ++ d /\
       forall x, latest x d = match newest (map (h_id I) news) with Some i => Some i | None => x end) /\
    e_env I (acts I l e) = e_env I e /\
    ((forall h, ~ In (Deliver I h) l) -> news = []).
  Proof.
    unfold acts. induction l as [|a l IH]; intros e.
    - exists []. rewrite app_nil_r. split; auto. split; [exists []; now rewrite app_nil_r|]. auto.
    - cbn [fold_left]. destruct (IH (act I e a)) as (news & C & (d & Ld & X) & Ev & N).
      destruct a as [h| |]; cbn [act] in *.
      + destruct (_ <? _); ecbn_in C; ecbn_in Ld; ecbn_in Ev.
        * exists (h :: news). split; [rewrite C, <- app_assoc; reflexivity|]. split.
          { exists (Delivered (h_id I h) :: d). split; [rewrite Ld, <- app_assoc; reflexivity|]. intros x. cbn [latest map].
            rewrite X. change (h_id I h :: map (h_id I) news) with ([h_id I h] ++ map (h_id I) news). rewrite newest_app.
            destruct (newest (map (h_id I) news)); reflexivity. }
          split; auto. intros H. destruct (H h). now left.
        * exists news. split; auto. split; [|split; auto; intros H; apply N; intros h' Hh; apply (H h'); now right].
          eexists. split; [rewrite Ld, <- app_assoc; reflexivity|]. intros x. cbn [app latest]. apply X.
      + destruct (e_notes I e) as [|n t]; ecbn_in C; ecbn_in Ld; ecbn_in Ev; exists news; (split; [auto|]);
          (split; [|split; auto; intros H; apply N; intros h' Hh; apply (H h'); now right]).
        * eauto.
        * eexists. split; [rewrite Ld, <- app_assoc; reflexivity|]. intros x. rewrite latest_app, latest_destroy. apply X.
      + ecbn_in C; ecbn_in Ld; ecbn_in Ev. exists news. split; auto. split; [eauto|].
        split; auto; intros H; apply N; intros h' Hh; apply (H h'); now right.
  Qed.
  Lemma interrupt_adds e : exists news, e_commands I (interrupt I e) = e_commands I e ++ news /\ adds e (interrupt I e) news.
  Proof.
    unfold interrupt. destruct (e_env I e) as [|l t] eqn:E.
    - exists []. rewrite app_nil_r. split; auto. now apply adds_refl.
    - destruct (acts_adds l (set_env I t e)) as (news & C & X & Ev & N). exists news. split; auto. split; auto.
      intros H. split; [apply N; apply H; rewrite E; now left|].
      unfold no_loads. rewrite Ev. intros l' Hl'. apply H. rewrite E. now right.
  Qed.
  Lemma push_note_adds n e : exists news, e_commands I (push_note I n e) = e_commands I e ++ news /\ adds e (push_note I n e) news.
  Proof.
    unfold push_note. destruct (interrupt_adds e) as (news & C & X). exists news. destruct (_ <? _); split; auto.
    rewrite <- (app_nil_r news). eapply adds_trans; [exact X|]. eapply adds_log; ecbn; auto. intros x. apply latest_destroy.
  Qed.
  Lemma interrupt_front e : front_of (interrupt I e) = front_of e.
  Proof.
    destruct (interrupt_slots I e) as (G1 & G2 & G3 & G4 & G5 & G6 & G7 & G8 & G9). unfold front_of. congruence.
  Qed.
  Lemma push_note_front n e : front_of (push_note I n e) = front_of e.
  Proof.
    destruct (push_note_slots I n e) as (G1 & G2 & G3 & G4 & G5 & G6 & G7 & G8 & G9). unfold front_of. congruence.
  Qed.

  Variable w : nat.
  Variable ok : cv I -> Prop.
  Hypothesis Hw : 0 < w.
  Hypothesis HI : accepting I w ok.
  Notation inv := (inv I w ok).

  Lemma begin_fade_front M b e h : inv M b e -> e_fade I e = Some h -> e_pending I e = None ->
    exists e', eng_begin_fade I e = Ok e' /\ inv M b e' /\ front_of e' = start b h (front_of e) /\
      e_commands I e' = e_commands I e /\ e_log I e' = e_log I e /\ e_env I e' = e_env I e.
  Proof.
    intros He Hf Hp. destruct (begin_fade_ok I w ok M b e h He Hf) as (e' & E & H & _). exists e'. split; auto. split; auto.
    destruct He as [[] _]. revert E. unfold eng_begin_fade. rewrite Hf, i_bounds, fade_of_ok by auto. cbn [bind].
    fold (fade_len b h). destruct (fade_len b h) as [s n] eqn:El. intros E. injection E as <-.
    unfold front_of, start. ecbn. rewrite El, Hf, Hp. auto.
  Qed.

  Lemma ready_front M b e h : inv M b e -> okh I ok h ->
    exists e' news, eng_ready I e h = Ok e' /\ inv M b e' /\ front_of e' = take b (front_of e) h /\
      e_commands I e' = e_commands I e ++ news /\ adds e e' news.
  Proof.
    intros He Hh. destruct (ready_ok I w ok M b e h He Hh) as (e' & E & H & _). exists e'.
    revert E. unfold eng_ready, take. cbn [front_of f_conv f_fade].
    destruct (e_conv I e) as [c|] eqn:Ec.
    2:{ intros E. injection E as <-. exists []. split; auto. split; auto. split; [reflexivity|]. split; [now rewrite app_nil_r|].
        now apply adds_refl. }
    set (e1 := match e_pending I e with Some p => _ | None => e end).
    assert (H1 : inv M b e1 /\ (exists news, e_commands I e1 = e_commands I e ++ news /\ adds e e1 news) /\
                 front_of e1 = {| f_conv := Some c; f_fade := e_fade I e; f_pend := None; f_in := e_in I e; f_out := e_out I e; f_strat := e_strategy I e |}).
    { unfold e1. destruct (e_pending I e) as [p|] eqn:Ep.
      - assert (H0 : inv M b (set_slots I (Some c) (e_fade I e) None e)).
        { destruct He as [[] []]. split; split; ecbn; auto; try (now rewrite <- Ec); try apply oko_None; auto. }
        destruct (push_note_inv I w ok M b (Some p) _ H0) as [G1 _]. split; auto.
        destruct (push_note_adds (Some p) (set_slots I (Some c) (e_fade I e) None e)) as (news & C & X).
        split; [exists news; split; auto|]. rewrite push_note_front. reflexivity.
      - split; auto. split; [exists []; rewrite app_nil_r; split; auto; now apply adds_refl|]. unfold front_of. now rewrite Ec, Ep. }
    clearbody e1. destruct H1 as (HB & (news & C & X) & HF).
    assert (HF1 := HF). unfold front_of in HF1. injection HF1 as F1 F2 F3 F4 F5 F6. rewrite F2.
    destruct (e_fade I e) as [f|] eqn:Ef.
    - intros E. injection E as <-. exists news. split; auto. split; auto. split; [|split; auto].
      unfold front_of. ecbn. cbn [f_in f_out f_strat f_conv f_fade]. congruence.
    - intros E.
      destruct (begin_fade_front M b (set_slots I (e_conv I e1) (Some h) (e_pending I e1) e1) h) as (e2 & E2 & I2 & FF & C2 & L2 & V2); auto.
      { destruct HB as [[] []]. split; split; ecbn; auto; try (now apply oko_Some); try discriminate. }
      rewrite E in E2. injection E2 as <-. exists news. split; auto. split; auto. split; [|split].
      + rewrite FF. unfold start, front_of. ecbn. cbn [f_in f_out f_strat f_conv f_fade]. congruence.
      + rewrite C2. ecbn. auto.
      + rewrite <- (app_nil_r news). eapply adds_trans; [exact X|]. apply adds_refl; rewrite ?L2, ?V2; reflexivity.
  Qed.

  Lemma service_n_front M b : forall n e, inv M b e -> n <= length (e_commands I e) ->
    exists e' news, eng_service_n I n e = Ok e' /\ inv M b e' /\ front_of e' = takes b (firstn n (e_commands I e)) (front_of e) /\
      e_commands I e' = skipn n (e_commands I e) ++ news /\ adds e e' news.
  Proof.
    induction n as [|n IH]; intros e He Hn; cbn [eng_service_n].
    { exists e, []. split; auto. split; auto. split; auto. split; [now rewrite app_nil_r|]. now apply adds_refl. }
    destruct (interrupt_inv I w ok M b e He) as [H1 _]. cbv zeta.
    destruct (interrupt_adds e) as (n1 & C1 & X1). pose proof (interrupt_front e) as F1.
    set (e1 := interrupt I e) in *. clearbody e1.
    destruct (e_commands I e) as [|h t] eqn:Ec; [cbn in Hn; lia|]. rewrite C1. cbn [app].
    assert (Hh : okh I ok h /\ inv M b (set_commands I (t ++ n1) (S (e_cmd_busy I e1)) e1)).
    { destruct H1 as [[] [Q1 Q2]]. rewrite C1 in Q1. cbn [app] in Q1. inversion Q1; subst. split; auto. split; split; auto. }
    destruct Hh as [Hh H2].
    destruct (ready_front M b _ h H2 Hh) as (e2 & n2 & E2 & I2 & F2 & C2 & X2). ecbn_in C2.
    rewrite E2. cbn [bind]. cbn [length] in Hn.
    destruct (IH e2 I2) as (e3 & n3 & E3 & I3 & F3 & C3 & X3); [rewrite C2, !app_length; lia|].
    exists e3, (n1 ++ n2 ++ n3). split; auto. split; auto. split; [|split].
    - rewrite F3, C2. cbn [firstn takes fold_left]. unfold takes. f_equal.
      + rewrite <- app_assoc, firstn_app. replace (n - length t) with 0 by lia. cbn [firstn]. now rewrite app_nil_r.
      + rewrite F2. f_equal. exact F1.
    - rewrite C3, C2. cbn [skipn]. rewrite <- app_assoc, skipn_app. replace (n - length t) with 0 by lia. cbn [skipn].
      now rewrite <- !app_assoc.
    - eapply adds_trans; [exact X1|]. eapply adds_trans; [|exact X3].
      destruct X2 as [X2 N2]. split; auto.
  Qed.
  Lemma service_front M b e : inv M b e ->
    exists e' news, eng_service I e = Ok e' /\ inv M b e' /\ front_of e' = takes b (e_commands I e) (front_of e) /\
      e_commands I e' = news /\ e_cmd_busy I e' = 0 /\ adds e e' news.
  Proof.
    intros He. unfold eng_service. destruct (service_n_front M b _ e He (le_n _)) as (e1 & n1 & -> & I1 & F1 & C1 & X1). cbn [bind].
    destruct (interrupt_inv I w ok M b e1 I1) as [H2 _]. destruct (interrupt_adds e1) as (n2 & C2 & X2). pose proof (interrupt_front e1) as F2.
    set (e2 := interrupt I e1) in *. clearbody e2. rewrite skipn_all in C1. rewrite firstn_all in F1. cbn [app] in C1.
    eexists _, (n1 ++ n2). split; [reflexivity|]. ecbn. split; [|split; [|split; [|split; auto]]].
    - destruct H2 as [[] []]. split; split; auto.
    - transitivity (front_of e2); [reflexivity|]. congruence.
    - congruence.
    - eapply adds_trans; [exact X1|]. exact X2.
  Qed.

  Definition with_slots (c f : option held) (F : front) : front :=
    {| f_conv := c; f_fade := f; f_pend := f_pend F; f_in := f_in F; f_out := f_out F; f_strat := f_strat F |}.
  Definition with_smooth (i o : smooth A) (F : front) : front :=
    {| f_conv := f_conv F; f_fade := f_fade F; f_pend := f_pend F; f_in := i; f_out := o; f_strat := f_strat F |}.
  (** a fade ends with the block in which the incoming gain reaches its target *)
  Definition check (b : bounds) (F : front) : front := if sm_smoothing (f_in F) then F else fin b F.

  (** what one block of [m] samples does after the queue was serviced *)
  Inductive one_block (b : bounds) (m : nat) (out : audio A) (F : front) : front -> audio A -> Prop :=
  | ob_plain c' o : f_fade F = None -> proc I (f_conv F) out = Ok (c', o) -> block_of w m o ->
      one_block b m out F (with_slots c' None F) o
  | ob_cross f c' oa f' ob : f_fade F = Some f -> f_strat F = kCrossfade ->
      proc I (f_conv F) out = Ok (c', oa) -> block_of w m oa ->
      proc I (Some f) out = Ok (Some f', ob) -> block_of w m ob ->
      one_block b m out F
        (check b (with_smooth (sm_iter m (f_in F)) (sm_iter m (f_out F)) (with_slots c' (Some f') F)))
        (mk w m (fun c i => sadd (smul (at_ oa c i) (gain (f_out F) i)) (smul (at_ ob c i) (gain (f_in F) i))))
  | ob_out f c' oa : f_fade F = Some f -> f_strat F = kInOut -> 0 < sm_count (f_out F) ->
      proc I (f_conv F) out = Ok (c', oa) -> block_of w m oa ->
      one_block b m out F
        (check b (with_smooth (f_in F) (sm_iter m (f_out F)) (with_slots c' (Some f) F)))
        (mk w m (fun c i => smul (at_ oa c i) (gain (f_out F) i)))
  | ob_in f f' ob : f_fade F = Some f -> f_strat F = kInOut -> sm_count (f_out F) = 0 ->
      proc I (Some f) out = Ok (Some f', ob) -> block_of w m ob ->
      one_block b m out F
        (check b (with_smooth (sm_iter m (f_in F)) (f_out F) (with_slots (f_conv F) (Some f') F)))
        (mk w m (fun c i => smul (at_ ob c i) (gain (f_in F) i))).

  Lemma finish_front M b e : inv M b e ->
    exists e' news, eng_finish I e = Ok e' /\ inv M b e' /\ front_of e' = fin b (front_of e) /\
      e_commands I e' = e_commands I e ++ news /\ adds e e' news.
  Proof.
    intros He. destruct (finish_ok I w ok M b e He) as (e' & E & H). exists e'. revert E. unfold eng_finish.
    assert (H0 : inv M b (set_slots I None (e_fade I e) (e_pending I e) e)).
    { destruct He as [[] []]. split; split; ecbn; auto. apply oko_None. }
    destruct (push_note_inv I w ok M b (e_conv I e) _ H0) as [H1 _].
    destruct (push_note_adds (e_conv I e) (set_slots I None (e_fade I e) (e_pending I e) e)) as (news & C & X).
    pose proof (push_note_front (e_conv I e) (set_slots I None (e_fade I e) (e_pending I e) e)) as HF.
    set (e1 := push_note I _ _) in *. clearbody e1. cbv zeta. ecbn. ecbn_in C.
    assert (HF1 := HF). unfold front_of in HF1. ecbn_in HF1. injection HF1 as F1 F2 F3 F4 F5 F6.
    assert (X' : adds e e1 news) by (destruct X as [X1 X2]; split; auto).
    unfold fin. cbn [front_of f_pend]. rewrite <- F3.
    destruct (e_pending I e1) as [p|] eqn:Ep; intros E.
    - destruct (begin_fade_front M b (set_slots I (e_fade I e1) (Some p) None (eng_reset_fade I (set_slots I (e_fade I e1) None (Some p) e1))) p) as (e2 & E2 & I2 & FF & C2 & L2 & V2); auto.
      { destruct H1 as [[] []]. split; split; ecbn; auto; try (now rewrite <- Ep); try apply oko_None; auto. }
      rewrite <- Ep in E2. ecbn_in E2. rewrite Ep in E2.
      assert (e2 = e') by congruence. subst e2. exists news. split; auto. split; auto. split; [|split].
      + rewrite FF. unfold start, front_of. ecbn. cbn [f_conv f_fade f_pend f_in f_out f_strat]. congruence.
      + rewrite C2. ecbn. auto.
      + rewrite <- (app_nil_r news). eapply adds_trans; [exact X'|]. apply adds_refl; rewrite ?L2, ?V2; reflexivity.
    - injection E as <-. exists news. split; auto. split; auto. split; [|split; auto].
      unfold front_of. ecbn. cbn [f_conv f_fade f_pend f_in f_out f_strat]. congruence.
  Qed.

  Lemma process_front M b e m out : inv M b e -> 0 < M -> m <= M -> block_of w m out ->
    exists e' o news, eng_process I e out = Ok (e', o) /\ inv M b e' /\ block_of w m o /\
      one_block b m out (takes b (e_commands I e) (front_of e)) (front_of e') o /\
      e_commands I e' = news /\ adds e e' news.
  Proof.
    intros He HM Hm Ho. destruct (process_ok I w ok Hw HI M b e m out He HM Hm Ho) as (e' & o & E & H & Hbo).
    exists e', o.
    cut (exists news, one_block b m out (takes b (e_commands I e) (front_of e)) (front_of e') o /\ e_commands I e' = news /\ adds e e' news).
    { intros (news & X). exists news. auto. }
    revert E. unfold eng_process. destruct (service_front M b e He) as (e1 & n1 & -> & I1 & F1 & C1 & B1 & X1). cbn [bind].
    rewrite <- F1. clear F1. intros E.
    pose proof I1 as [S1 Q1]. pose proof (i_conv _ _ _ _ _ _ S1) as Hc. pose proof (i_fade _ _ _ _ _ _ S1) as Hf. pose proof (i_buffer _ _ _ _ _ _ S1) as HB.
    destruct (proc_ok I w ok HI _ m out Hc Ho) as (c' & oa & Ea & Hc' & Ha & _).
    destruct (proc_ok I w ok HI _ m out Hf Ho) as (f' & ob & Eb & Hf' & Hb & Hn).
    destruct (e_fade I e1) as [f|] eqn:Ef.
    2:{ rewrite Ea in E. cbn [bind] in E. injection E as <- <-. exists n1.
        split; [|split; auto]. apply (ob_plain b m out (front_of e1) c' oa); auto. }
    destruct f' as [f'|]; [|destruct Hn as [_ Hn]; specialize (Hn eq_refl); discriminate].
    assert (X : exists e2 F2, (match e_strategy I e1 with kCrossfade => eng_crossfade I e1 out | kInOut => eng_in_out I e1 out end) = Ok (e2, o)
               /\ inv M b e2 /\ front_of e2 = F2 /\ one_block b m out (front_of e1) (check b F2) o /\
               e_commands I e2 = e_commands I e1 /\ e_log I e2 = e_log I e1 /\ e_env I e2 = e_env I e1).
    { destruct (e_strategy I e1) eqn:Es.
      - destruct (sm_smoothing (e_out I e1)) eqn:Eo.
        + rewrite (in_out_eq_out I w Hw m e1 out c' oa) in E |- * by auto. cbn [bind] in E.
          match type of E with bind (if sm_smoothing ?x then _ else _) _ = _ => destruct (sm_smoothing x) end; cbn [bind] in E;
            [|destruct (eng_finish _ _) as [e3| |]; cbn [bind] in E; try discriminate]; injection E as _ <-;
            (eexists _, _; split; [reflexivity|]; split; [destruct S1, Q1; split; split; ecbn; auto|]; split; [reflexivity|]; split; [|auto]);
            (unfold sm_smoothing in Eo; apply Nat.ltb_lt in Eo;
             pose proof (ob_out b m out (front_of e1) f c' oa Ef Es Eo Ea Ha) as OB; rewrite Ef; exact OB).
        + rewrite (in_out_eq_in I w Hw m e1 out (Some f') ob) in E |- * by (rewrite ?Ef; auto). cbn [bind] in E.
          match type of E with bind (if sm_smoothing ?x then _ else _) _ = _ => destruct (sm_smoothing x) end; cbn [bind] in E;
            [|destruct (eng_finish _ _) as [e3| |]; cbn [bind] in E; try discriminate]; injection E as _ <-;
            (eexists _, _; split; [reflexivity|]; split; [destruct S1, Q1; split; split; ecbn; auto; discriminate|]; split; [reflexivity|]; split; [|auto]);
            (unfold sm_smoothing in Eo; apply Nat.ltb_ge in Eo;
             pose proof (ob_in b m out (front_of e1) f f' ob Ef Es ltac:(cbn [front_of f_out]; lia) Eb Hb) as OB; exact OB).
      - rewrite <- Ef in Eb. destruct (crossfade_eq I w Hw M m e1 out c' oa (Some f') ob HB HM Hm Ho Ea Ha Eb Hb) as (buf & Hbuf & EE).
        rewrite EE in E |- *. cbn [bind] in E.
          match type of E with bind (if sm_smoothing ?x then _ else _) _ = _ => destruct (sm_smoothing x) end; cbn [bind] in E;
            [|destruct (eng_finish _ _) as [e3| |]; cbn [bind] in E; try discriminate]; injection E as _ <-;
            (eexists _, _; split; [reflexivity|]; split; [destruct S1, Q1; split; split; ecbn; auto; discriminate|]; split; [reflexivity|]; split; [|auto]);
            (rewrite Ef in Eb; pose proof (ob_cross b m out (front_of e1) f c' oa f' ob Ef Es Ea Ha Eb Hb) as OB; exact OB). }
    destruct X as (e2 & F2 & E2 & I2 & EF2 & OB & C2 & L2 & V2). rewrite E2 in E. cbn [bind] in E.
    assert (X2 : adds e e2 n1).
    { rewrite <- (app_nil_r n1). eapply adds_trans; [exact X1|]. now apply adds_refl. }
    unfold check in OB. rewrite <- EF2 in OB. cbn [front_of f_in] in OB.
    destruct (sm_smoothing (e_in I e2)); cbn [bind] in E.
    - injection E as <-. exists n1. split; [|split]; auto; congruence.
    - destruct (finish_front M b e2 I2) as (e3 & n2 & E3 & I3 & F3 & C3 & X3). rewrite E3 in E. cbn [bind] in E. injection E as <-.
      exists (n1 ++ n2). split; [congruence|].
      split; [congruence|]. eapply adds_trans; eauto.
  Qed.

  (** reset *)
  Definition rest (F : front) : front :=
    {| f_conv := f_conv F; f_fade := f_fade F; f_pend := f_pend F;
       f_in := sm_set false (f_in F); f_out := sm_set true (f_out F); f_strat := f_strat F |}.
  Definition reset_conv (o : option held) : option held :=
    match o with Some h => Some {| h_id := h_id I h; h_cv := cv_reset I (h_cv I h) |} | None => None end.
  Definition settle (F : front) : front :=
    match f_pend F, f_fade F with
    | Some p, f => {| f_conv := reset_conv (Some p); f_fade := f; f_pend := None; f_in := f_in F; f_out := f_out F; f_strat := f_strat F |}
    | None, Some f => {| f_conv := reset_conv (Some f); f_fade := None; f_pend := None; f_in := f_in F; f_out := f_out F; f_strat := f_strat F |}
    | None, None => {| f_conv := reset_conv (f_conv F); f_fade := None; f_pend := None; f_in := f_in F; f_out := f_out F; f_strat := f_strat F |}
    end.
  Lemma reset_front M b e : inv M b e ->
    exists e' news, eng_reset I e = Ok e' /\ inv M b e' /\ front_of e' = settle (takes b (e_commands I e) (rest (front_of e))) /\
      e_commands I e' = news /\ adds e e' news.
  Proof.
    intros He. destruct (reset_ok I w ok Hw HI M b e He) as (e' & E & H). exists e'. revert E. unfold eng_reset.
    assert (H0 : inv M b (eng_reset_fade I e)) by (destruct He as [[] []]; split; split; auto).
    destruct (service_front M b _ H0) as (e1 & n1 & -> & I1 & F1 & C1 & B1 & X1). cbn [bind].
    change (front_of (eng_reset_fade I e)) with (rest (front_of e)) in F1. change (e_commands I (eng_reset_fade I e)) with (e_commands I e) in F1.
    rewrite <- F1. clear F1. intros E. injection E as <-. exists n1. split; auto. split; auto.
    unfold settle. cbn [front_of f_pend f_fade f_conv f_in f_out f_strat]. ecbn.
    assert (XX : forall e2 d, e_log I e2 = e_log I e1 ++ d -> e_env I e2 = e_env I e1 -> (forall x, latest x d = x) -> adds e e2 n1).
    { intros e2 d L2 V2 D2. rewrite <- (app_nil_r n1). eapply adds_trans; [exact X1|]. eapply adds_log; eauto. }
    destruct (e_pending I e1) as [p|] eqn:Ep, (e_fade I e1) as [f|] eqn:Ef; ecbn.
    - split; [reflexivity|]. split; auto. eapply XX; [reflexivity|reflexivity|]. intros; apply latest_destroy.
    - split; [reflexivity|]. split; auto. eapply XX; [reflexivity|reflexivity|]. intros; apply latest_destroy.
    - split; [reflexivity|]. split; auto. eapply XX; [reflexivity|reflexivity|]. intros; apply latest_destroy.
    - destruct (e_conv I e1) as [c|] eqn:Ec; cbn [reset_conv]; (split; [unfold front_of; ecbn; congruence|]); (split; auto);
        eapply XX with (d := []); ecbn; rewrite ?app_nil_r; auto.
  Qed.
End Front.

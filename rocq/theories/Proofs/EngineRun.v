(** * Histories: which convolver is in charge *)
From Verif.Model Require Import Base Arith Juce Float32 SmoothedValue Convolver ConvolutionEngine.
From Verif.Spec Require Import Transform Signal Engine.
From Verif.Proofs Require Import Lists Blocks FFTProof FadeProof SmoothProof EngineProof EngineInv EngineFront EngineCalm.

Section Run.
  Context {A : arith} (I : conv_if A).
  Notation engine := (engine I).
  Notation held := (held I).
  Notation front := (front I).
  Notation front_of := (front_of I).
  Variable w : nat.
  Variable ok : cv I -> Prop.
  Hypothesis Hw : 0 < w.
  Hypothesis HI : accepting I w ok.
  Notation inv := (inv I w ok).
  Notation adds := (adds I).
  Notation fcalm := (fcalm I).
  Notation calm := (calm I).
  Notation fids := (fids I).

  Ltac step H := match type of H with
    | bind ?a _ = Ok _ => let E := fresh "E" in let v := fresh "r" in destruct a as [v| |] eqn:E; cbn [bind] in H; try discriminate
    end.
  Ltac step2 H c o := match type of H with
    | bind ?a _ = Ok _ => let E := fresh "E" in destruct a as [[c o]| |] eqn:E; cbn [bind] in H; try discriminate
    end.

  Lemma run_app : forall l1 e l2, eng_run I e (l1 ++ l2) =
    (' (e1, o1) <- eng_run I e l1 ;; ' (e2, o2) <- eng_run I e1 l2 ;; Ok (e2, o1 ++ o2)).
  Proof.
    induction l1 as [|o l1 IH]; intros e l2.
    - cbn [app eng_run bind]. destruct (eng_run I e l2) as [[e2 o2]| |]; reflexivity.
    - cbn [app eng_run]. destruct (eng_step I e o) as [[e1 x]| |]; cbn [bind]; try reflexivity.
      rewrite IH. destruct (eng_run I e1 l1) as [[e2 xs]| |]; cbn [bind]; try reflexivity.
      destruct (eng_run I e2 l2) as [[e3 ys]| |]; cbn [bind]; try reflexivity. now rewrite app_assoc.
  Qed.

  (** the state together with the last call of prepare *)
  Definition tracked (p : option process_spec) (e : engine) : Prop :=
    match p with
    | None => pre I ok e
    | Some s => spec_ok w s /\ exists b, engine_bounds s = Ok b /\ inv (ps_max_block s) b e
    end.
  Lemma tracked_ok p e : tracked p e -> state_ok I w ok (option_map ps_max_block p) e.
  Proof.
    destruct p as [s|]; cbn; auto. intros ((_ & HM & _) & b & _ & H). split; auto. now exists b.
  Qed.

  Lemma prepare_front p e s : spec_ok w s -> tracked p e ->
    exists b e' news, engine_bounds s = Ok b /\ eng_prepare I e s = Ok e' /\ inv (ps_max_block s) b e' /\
      front_of e' = settle I (takes I b (e_commands I e) (rest I (front_of e))) /\ e_commands I e' = news /\ adds e e' news.
  Proof.
    intros (Hc & HM & H1 & H2 & H3) He.
    destruct (bounds_ok s H1 H2 H3) as (b & Eb & _ & _ & _ & _ & HO & _ & HL). exists b.
    destruct (reset_front I w ok Hw HI (ps_max_block s) b (set_buffer I (zeros (ps_channels s) (ps_max_block s)) (set_bounds I b e))) as (e' & news & E & H & F & C & X).
    - assert (HB : block_of w (ps_max_block s) (zeros (A := A) (ps_channels s) (ps_max_block s))).
      { rewrite Hc, zeros_mk. apply mk_block. }
      destruct p as [s0|]; cbn [tracked] in He.
      + destruct He as (_ & b0 & _ & [[] []]). split; split; ecbn; auto; lia.
      + destruct He as (E1 & E2 & E3 & []). split; split; ecbn; auto; try lia; rewrite ?E1, ?E2, ?E3; auto; apply oko_None.
    - exists e', news. split; auto. split; [unfold eng_prepare; rewrite Eb; exact E|]. split; auto.
  Qed.

  Lemma clear_front M b e : inv M b e ->
    exists e' news, eng_clear I e = Ok e' /\ inv M b e' /\
      (let F := settle I (takes I b (e_commands I e) (rest I (front_of e))) in
       front_of e' = {| f_conv := None; f_fade := f_fade I F; f_pend := None; f_in := f_in I F; f_out := f_out I F; f_strat := f_strat I F |}) /\
      e_commands I e' = news /\
      (exists d, e_log I e' = e_log I e ++ ClearCalled :: d /\ forall x, latest x d = match newest (map (h_id I) news) with Some i => Some i | None => x end) /\
      (no_loads e -> news = [] /\ no_loads e').
  Proof.
    intros He. destruct (clear_ok I w ok Hw HI M b e He) as (e' & E & H). exists e'. revert E. unfold eng_clear.
    assert (H0 : inv M b (add_log I [ClearCalled] e)) by (destruct He as [[] []]; split; split; auto).
    destruct (reset_front I w ok Hw HI M b _ H0) as (e1 & news & -> & I1 & F1 & C1 & X1). cbn [bind]. intros E. injection E as <-.
    exists news. split; auto. split; auto.
    change (front_of (add_log I [ClearCalled] e)) with (front_of e) in F1. change (e_commands I (add_log I [ClearCalled] e)) with (e_commands I e) in F1.
    cbv zeta. rewrite <- F1. split; [reflexivity|]. split; [exact C1|]. destruct X1 as [(d & L & X) N]. ecbn. ecbn_in L. split.
    - exists (d ++ (destroy I Caller (e_conv I e1) ++ destroy I Caller (e_pending I e1))). split.
      + rewrite L. now rewrite <- !app_assoc.
      + intros x. now rewrite !latest_app, !latest_destroy.
    - intros HN. apply N. exact HN.
  Qed.

  Definition fb (p : option process_spec) (e : engine) : Prop :=
    match p with
    | Some s => forall b, engine_bounds s = Ok b -> fbound I (ps_max_block s) b (front_of e)
    | None => True
    end.
  (** everything there is to know about a quiet engine *)
  Definition good (p : option process_spec) (e : engine) : Prop := tracked p e /\ calm e /\ fb p e.

  Lemma settled_calm b e F : calm e -> f_conv I F = e_conv I e -> f_fade I F = e_fade I e -> f_pend I F = e_pending I e ->
    length (line e) <= 2 -> let F' := settle I (takes I b (e_commands I e) F) in
    f_fade I F' = None /\ f_pend I F' = None /\ newest (fids F') = newest (line e).
  Proof.
    intros [C1 C2] E1 E2 E3 HL. rewrite line_front, app_length, map_length in HL.
    assert (EF : fids F = fids (front_of e)) by (unfold fids; cbn [front_of f_conv f_fade f_pend]; congruence).
    destruct (takes_calm I b (e_commands I e) F) as (D1 & D2 & D3).
    { destruct C1 as [C1 C3]. split; rewrite ?E1, ?E2, ?E3; auto. }
    rewrite EF in *. destruct (settle_calm I (takes I b (e_commands I e) F)) as (S1 & S2 & S3); auto; [lia|].
    cbv zeta. split; auto. split; auto. rewrite S3, D2. now rewrite line_front.
  Qed.

  Lemma bounds_same s b b' : engine_bounds s = Ok b -> engine_bounds s = Ok b' -> b = b'.
  Proof. congruence. Qed.

  Lemma adds_line e e' news x : adds e e' news -> e_commands I e' = news -> newest (fids (front_of e')) = x -> latest None (e_log I e) = x ->
    latest None (e_log I e') = newest (line e').
  Proof.
    intros X C E L. rewrite (adds_latest I e e' news None X), line_front, newest_app, C, E, L. reflexivity.
  Qed.

  Lemma fin_none F : f_fade I F = None -> f_pend I F = None -> fcalm F.
  Proof. intros H1 H2. split; auto. Qed.

  Lemma good_step p e o e' x : good p e -> legal I w ok (option_map ps_max_block p) [o] ->
    (restarts o -> length (line e) <= 2) -> eng_step I e o = Ok (e', x) -> good (last_spec p [o]) e'.
  Proof.
    intros (HT & HC & HF) HL HU H. pose proof HC as [C1 C2].
    destruct o as [s|b| | |l]; cbn [eng_step last_spec legal] in *.
    - destruct (prepare_front p e s) as (b & e1 & news & Eb & E & H1 & F1 & N1 & X1); try tauto.
      rewrite E in H. cbn [bind] in H. injection H as <- <-.
      destruct (settled_calm b e (rest I (front_of e)) HC eq_refl eq_refl eq_refl (HU Logic.I)) as (S1 & S2 & S3). rewrite <- F1 in S1, S2, S3.
      split; [split; [tauto|exists b; auto]|]. split; [split; [now apply fin_none|]|].
      + eapply adds_line; [exact X1|exact N1|exact S3|exact C2].
      + intros b' _ X. now destruct X.
    - destruct HL as [(M & m & EM & Hm & Hb) _]. destruct p as [s|]; [|discriminate]. cbn in EM. injection EM as <-.
      destruct HT as ((Hch & HM & Hr) & bd & Ebd & He).
      destruct (process_front I w ok Hw HI _ bd e m b He HM Hm Hb) as (e1 & o & news & E & H1 & Ho & OB & N1 & X1).
      rewrite E in H. cbn [bind] in H. injection H as <- <-.
      destruct (takes_calm I bd (e_commands I e) (front_of e) C1) as (D1 & D2 & D3).
      destruct (one_block_calm I w bd m b _ _ _ OB D1) as (G1 & G2).
      split; [split; [split; auto|exists bd; auto]|]. split; [split; auto|].
      + eapply adds_line; [exact X1|exact N1|reflexivity|]. rewrite G2, D2, C2. now rewrite line_front.
      + intros b' Eb'. assert (b' = bd) by congruence. subst b'.
        pose proof (i_order I w ok _ _ _ (proj1 He)) as HO.
        destruct (one_block_todo I w (ps_max_block s) bd m b _ _ _ HO Hm OB) as [B1 _]; auto.
        apply takes_bound; auto.
    - destruct p as [s|]; [|now destruct HL]. destruct HT as (HS & bd & Ebd & He).
      destruct (reset_front I w ok Hw HI _ bd e He) as (e1 & news & E & H1 & F1 & N1 & X1).
      rewrite E in H. cbn [bind] in H. injection H as <- <-.
      destruct (settled_calm bd e (rest I (front_of e)) HC eq_refl eq_refl eq_refl (HU Logic.I)) as (S1 & S2 & S3). rewrite <- F1 in S1, S2, S3.
      split; [split; [auto|exists bd; auto]|]. split; [split; [now apply fin_none|]|].
      + eapply adds_line; [exact X1|exact N1|exact S3|exact C2].
      + intros b' _ X. now destruct X.
    - destruct p as [s|]; [|now destruct HL]. destruct HT as (HS & bd & Ebd & He).
      destruct (clear_front _ bd e He) as (e1 & news & E & H1 & F1 & N1 & (d & L1 & X1) & _).
      rewrite E in H. cbn [bind] in H. injection H as <- <-.
      destruct (settled_calm bd e (rest I (front_of e)) HC eq_refl eq_refl eq_refl (HU Logic.I)) as (S1 & S2 & S3). cbv zeta in F1.
      assert (G : f_conv I (front_of e1) = None /\ f_fade I (front_of e1) = None /\ f_pend I (front_of e1) = None).
      { rewrite F1. cbn [f_conv f_fade f_pend]. auto. }
      destruct G as (G1 & G2 & G3).
      split; [split; [auto|exists bd; auto]|]. split; [split; [now apply fin_none|]|].
      + rewrite L1, latest_app. cbn [latest]. rewrite X1, line_front. unfold fids. rewrite G1, G2, G3, N1. cbn [slot_ids app].
        destruct (newest (map (h_id I) news)); reflexivity.
      + intros b' _ X. now destruct X.
    - destruct (step_ok I w ok Hw HI (Others I l) (option_map ps_max_block p) e HL (tracked_ok p e HT)) as (e1 & x1 & E1 & T1 & _).
      cbn [eng_step] in E1. injection H as <- <-. injection E1 as <- <-.
      destruct (acts_adds I l e) as (news & Cn & (d & Ld & Xd) & _ & _).
      destruct (acts_slots I l e) as (G1 & G2 & G3 & G4 & G5 & G6 & G7 & G8 & G9).
      assert (EF : front_of (acts I l e) = front_of e) by (unfold front_of; congruence).
      split; [|split; [split|]].
      + destruct p as [s|]; cbn [tracked option_map] in *; [|exact T1].
        destruct HT as (HS & bd & Ebd & [HS1 HQ]). split; auto. exists bd. split; auto. destruct T1 as (_ & b1 & [_ HQ1]). split; auto.
        eapply sok_same; eauto.
      + now rewrite EF.
      + rewrite Ld, latest_app, Xd, C2, !line_front, EF, Cn, map_app, app_assoc. symmetry. apply newest_app.
      + destruct p as [s|]; auto. cbn [fb] in *. intros b' Eb'. rewrite EF. auto.
  Qed.

  Lemma last_spec_cons p o l : last_spec p (o :: l) = last_spec (I := I) (last_spec p [o]) l.
  Proof. destruct o; reflexivity. Qed.
  Lemma last_spec_prepared p o : prepared_after I (option_map ps_max_block p) [o] = option_map ps_max_block (last_spec (I := I) p [o]).
  Proof. destruct o; reflexivity. Qed.

  Lemma good_run : forall l p e e' outs, good p e -> legal I w ok (option_map ps_max_block p) l -> unhurried e l ->
    eng_run I e l = Ok (e', outs) -> good (last_spec p l) e'.
  Proof.
    induction l as [|o l IH]; intros p e e' outs HG HL HU H; cbn [eng_run] in H.
    - now injection H as <- <-.
    - step2 H e1 x1. step2 H e2 x2. injection H as <- <-. apply legal_cons in HL. destruct HL as [L1 L2].
      rewrite last_spec_cons. eapply IH; eauto.
      + eapply good_step; eauto. intros R. apply (HU [] o l e []); auto.
      + now rewrite <- last_spec_prepared.
      + intros l1 o' l2 e3 outs3 El R E3. eapply (HU (o :: l1) o' l2 e3); eauto.
        * now rewrite El.
        * cbn [eng_run]. rewrite E. cbn [bind]. rewrite E3. reflexivity.
  Qed.
  Lemma good_new env : Forall (delivers_ok I ok) env -> good None (eng_new I env).
  Proof.
    intros H. split; [|split; [|exact Logic.I]].
    - cbn. repeat split; auto; constructor.
    - split; [|reflexivity]. split; auto.
  Qed.

  (** ** enough silence from the loader, and the newest convolver is alone *)
  Lemma total_cons (b : audio A) bs m : block_of w m b -> total (b :: bs) = m + total bs.
  Proof.
    intros H. unfold total. cbn [map list_sum fold_right]. f_equal.
    rewrite (block_mk w m b H). now apply num_samples_mk.
  Qed.
  Definition alone (e : engine) : Prop := e_fade I e = None /\ e_pending I e = None /\ e_commands I e = [].

  (** one block without new convolvers *)
  Lemma process_quiet s bd e m b : spec_ok w s -> engine_bounds s = Ok bd -> inv (ps_max_block s) bd e -> calm e -> no_loads e ->
    fbound I (ps_max_block s) bd (front_of e) -> m <= ps_max_block s -> block_of w m b ->
    exists e' o, eng_process I e b = Ok (e', o) /\ inv (ps_max_block s) bd e' /\ calm e' /\ no_loads e' /\ e_commands I e' = [] /\
      fbound I (ps_max_block s) bd (front_of e') /\ latest None (e_log I e') = latest None (e_log I e) /\
      (f_fade I (front_of e') = None \/
       todo I (ps_max_block s) bd (front_of e') + m <= todo I (ps_max_block s) bd (takes I bd (e_commands I e) (front_of e))).
  Proof.
    intros HS Ebd He HC HN HF Hm Hb. pose proof HS as (_ & HM & _).
    destruct (process_front I w ok Hw HI _ bd e m b He HM Hm Hb) as (e1 & o & news & E & H1 & Ho & OB & N1 & X1).
    exists e1, o. split; auto. split; auto.
    assert (HG : good (Some s) e1).
    { apply (good_step (Some s) e (Process I b) e1 [o]).
      - split; [split; eauto|]. split; auto. intros b' Eb'. replace b' with bd by congruence. auto.
      - cbn. split; auto. exists (ps_max_block s), m. auto.
      - intros [].
      - cbn. rewrite E. reflexivity. }
    destruct HG as (_ & HC1 & HF1). destruct X1 as [(d & L & X) N]. destruct (N HN) as [-> HN1].
    split; auto. split; auto. split; auto. split; [apply HF1; auto|]. split; [rewrite L, latest_app, X; reflexivity|].
    pose proof (i_order I w ok _ _ _ (proj1 He)) as HO.
    destruct (one_block_todo I w (ps_max_block s) bd m b _ _ _ HO Hm OB) as [_ B1]; auto. now apply takes_bound.
  Qed.

  Lemma todo_pos s bd e : 0 < ps_max_block s -> f_fade I (front_of e) <> None -> 0 < todo I (ps_max_block s) bd (front_of e).
  Proof. intros HM H. unfold todo. destruct (f_fade I (front_of e)); [lia|easy]. Qed.

  Lemma quiet_run s bd : spec_ok w s -> engine_bounds s = Ok bd ->
    forall bs e, fits w (ps_max_block s) bs -> inv (ps_max_block s) bd e -> calm e -> no_loads e -> e_commands I e = [] ->
    fbound I (ps_max_block s) bd (front_of e) ->
    exists e' outs, eng_run I e (map (Process I) bs) = Ok (e', outs) /\ inv (ps_max_block s) bd e' /\ calm e' /\ no_loads e' /\ e_commands I e' = [] /\
      fbound I (ps_max_block s) bd (front_of e') /\ latest None (e_log I e') = latest None (e_log I e) /\
      (f_fade I (front_of e') = None \/
       todo I (ps_max_block s) bd (front_of e') + total bs <= todo I (ps_max_block s) bd (front_of e)).
  Proof.
    intros HS Ebd. induction bs as [|b bs IH]; intros e Hbs He HC HN Hc HF.
    - exists e, []. split; [reflexivity|]. repeat (split; auto). right. cbn. lia.
    - destruct (Hbs b (or_introl eq_refl)) as (m & Hm & Hb).
      destruct (process_quiet s bd e m b HS Ebd He HC HN HF Hm Hb) as (e1 & o & E & H1 & HC1 & HN1 & Hc1 & HF1 & L1 & T1).
      destruct (IH e1) as (e2 & outs & E2 & H2 & HC2 & HN2 & Hc2 & HF2 & L2 & T2); auto.
      { intros b' Hb'. apply Hbs. now right. }
      exists e2, (o :: outs). cbn [map eng_run eng_step]. rewrite E. cbn [bind]. rewrite E2. cbn [bind]. split; [reflexivity|].
      split; auto. split; auto. split; auto. split; auto. split; auto. split; [congruence|].
      rewrite (total_cons b bs m Hb). rewrite Hc in T1. cbn [takes fold_left] in T1.
      destruct T2 as [T2|T2]; auto. destruct T1 as [T1|T1]; [|right; lia].
      destruct (f_fade I (front_of e2)) eqn:Ef2; auto. right.
      assert (Z : todo I (ps_max_block s) bd (front_of e1) = 0) by (unfold todo; now rewrite T1). rewrite Z in T2.
      pose proof (todo_pos s bd e2 ltac:(apply HS)) as TP. rewrite Ef2 in TP. specialize (TP ltac:(discriminate)). lia.
  Qed.

  Lemma settles s e bs : good (Some s) e -> no_loads e -> fits w (ps_max_block s) bs ->
    forall bd, engine_bounds s = Ok bd -> settling_time bd (ps_max_block s) <= total bs ->
    exists e' outs, eng_run I e (map (Process I) bs) = Ok (e', outs) /\ good (Some s) e' /\ no_loads e' /\ alone e' /\
      latest None (e_log I e) = newest (slot_ids (e_conv I e')) /\ latest None (e_log I e') = latest None (e_log I e).
  Proof.
    intros ((HS & bd & Ebd & He) & HC & HF) HN Hbs bd' Ebd' HT. assert (bd' = bd) by congruence. subst bd'.
    pose proof HS as (_ & HM & _).
    destruct bs as [|b bs]; [unfold settling_time in HT; cbn in HT; lia|].
    destruct (Hbs b (or_introl eq_refl)) as (m & Hm & Hb).
    destruct (process_quiet s bd e m b HS Ebd He HC HN (HF bd Ebd) Hm Hb) as (e1 & o & E & H1 & HC1 & HN1 & Hc1 & HF1 & L1 & T1).
    destruct (quiet_run s bd HS Ebd bs e1) as (e2 & outs & E2 & H2 & HC2 & HN2 & Hc2 & HF2 & L2 & T2); auto.
    { intros b' Hb'. apply Hbs. now right. }
    exists e2, (o :: outs). cbn [map eng_run eng_step]. rewrite E. cbn [bind]. rewrite E2. cbn [bind]. split; [reflexivity|].
    assert (FF : f_fade I (front_of e2) = None).
    { destruct T2 as [T2|T2]; auto. destruct (f_fade I (front_of e2)) eqn:Ef; auto. exfalso.
      pose proof (todo_pos s bd e2 HM) as TP. rewrite Ef in TP. specialize (TP ltac:(discriminate)).
      assert (TB : todo I (ps_max_block s) bd (takes I bd (e_commands I e) (front_of e)) <= settling_time bd (ps_max_block s)).
      { assert (B : fbound I (ps_max_block s) bd (takes I bd (e_commands I e) (front_of e))).
        { apply takes_bound; auto. apply (i_order I w ok _ _ _ (proj1 He)). }
        unfold todo, settling_time. destruct (f_fade I (takes I bd (e_commands I e) (front_of e))) eqn:Eft; [|lia].
        specialize (B ltac:(congruence)). destruct (f_pend I _); lia. }
      rewrite (total_cons b bs m Hb) in HT. destruct T1 as [T1|T1]; [|lia].
      assert (Z : todo I (ps_max_block s) bd (front_of e1) = 0) by (unfold todo; now rewrite T1). lia. }
    pose proof HC2 as [[_ C2] C3].
    split; [split; [split; eauto|split; [exact HC2|]]|].
    - intros b' Eb'. replace b' with bd by congruence. auto.
    - split; auto. split; [split; [exact FF|split; [now apply C2|auto]]|]. split; [|congruence].
      transitivity (latest None (e_log I e2)); [congruence|]. rewrite C3, line_front. unfold fids. rewrite FF, (C2 FF), Hc2. cbn. now rewrite !app_nil_r.
  Qed.

  (** ** one convolver, alone *)
  Lemma ob_none bd m b F F' o : one_block I w bd m b F F' o -> f_fade I F = None ->
    exists c', proc I (f_conv I F) b = Ok (c', o) /\ F' = with_slots I c' None F.
  Proof. intros OB HF. destruct OB; try congruence. eauto. Qed.
  Lemma alone_run M bd : 0 < M -> forall bs e, fits w M bs -> inv M bd e -> no_loads e -> alone e ->
    exists e' outs, eng_run I e (map (Process I) bs) = Ok (e', outs) /\ inv M bd e' /\ no_loads e' /\ alone e' /\
      e_in I e' = e_in I e /\ e_out I e' = e_out I e /\
      match e_conv I e with
      | None => outs = bs /\ e_conv I e' = None
      | Some h => exists c', feed (cv_process I) (h_cv I h) bs = Ok (c', outs) /\ e_conv I e' = Some {| h_id := h_id I h; h_cv := c' |}
      end.
  Proof.
    intros HM. induction bs as [|b bs IH]; intros e Hbs He HN (A1 & A2 & A3).
    - exists e, []. split; [reflexivity|]. repeat (split; auto). destruct (e_conv I e) as [[i c]|]; [|auto]. exists c. split; reflexivity.
    - destruct (Hbs b (or_introl eq_refl)) as (m & Hm & Hb).
      destruct (process_front I w ok Hw HI _ bd e m b He HM Hm Hb) as (e1 & o & news & E & H1 & Ho & OB & N1 & X1).
      destruct X1 as [_ N]. destruct (N HN) as [-> HN1]. rewrite A3 in OB. cbn [takes fold_left] in OB.
      apply ob_none in OB; [|exact A1]. destruct OB as (c' & Ec & EQ1).
      cbn [front_of f_conv] in Ec. unfold front_of, with_slots in EQ1. cbn [f_pend f_in f_out f_strat] in EQ1. injection EQ1 as Q1 Q2 Q3 Q4 Q5 Q6.
      destruct (IH e1) as (e2 & outs & E2 & H2 & HN2 & AL2 & I2 & O2 & P2); auto.
      { intros b' Hb'. apply Hbs. now right. }
      { split; [congruence|]. split; congruence. }
      exists e2, (o :: outs). cbn [map eng_run eng_step]. rewrite E. cbn [bind]. rewrite E2. cbn [bind]. split; [reflexivity|].
      split; auto. split; auto. split; auto. split; [congruence|]. split; [congruence|].
      destruct (e_conv I e) as [[i c]|]; cbn [proc h_id h_cv] in Ec.
      + step2 Ec c9 o9. injection Ec as <- <-. rewrite Q1 in P2. cbn [h_id h_cv] in P2. destruct P2 as (c2 & P2 & P3).
        exists c2. split; auto. cbn [feed h_cv]. rewrite E0. cbn [bind]. rewrite P2. reflexivity.
      + injection Ec as <- <-. rewrite Q1 in P2. destruct P2 as [-> P3]. auto.
  Qed.
  Lemma alone_plays M bd e : 0 < M -> inv M bd e -> no_loads e -> alone e -> plays w M e (e_conv I e).
  Proof.
    intros HM He HN HA bs Hbs. destruct (alone_run M bd HM bs e Hbs He HN HA) as (e' & outs & E & _ & _ & _ & _ & _ & P).
    exists e', outs. split; auto. destruct (e_conv I e); [|tauto]. destruct P as (c' & P & _). eauto.
  Qed.
End Run.

(** * Two engines that differ only in the samples they were given *)
From Verif.Model Require Import Base Arith Juce Float32 SmoothedValue Convolver ConvolutionEngine.
From Verif.Spec Require Import Transform Signal Engine Memory Twins.
From Verif.Proofs Require Import Lists Blocks FFTProof FadeProof SmoothProof Param EngineProof EngineInv.

(** the number of samples since the two inputs differed, at sample [i] of a block whose samples agree from [T] on, when there
    were [k] such samples before the block *)
Definition age (k T i : nat) : nat := if T =? 0 then k + i else i - T.
Definition block_agree {A : arith} (T : nat) (b b' : audio A) : Prop :=
  forall c i, T <= i -> nth i (nth c b []) s0 = nth i (nth c b' []) s0.

(** [rel k c c']: two states of a convolver that were given the same last [k] samples *)
Record forgets {A : arith} (I : conv_if A) (w D : nat) (new : cv I -> Prop) (rel : nat -> cv I -> cv I -> Prop) : Prop := {
  fg_new : forall c k, new c -> rel k c c;
  fg_down : forall k j c c', rel k c c' -> j <= k -> rel j c c';
  fg_reset : forall k c c', rel 0 c c' -> rel k (cv_reset I c) (cv_reset I c');
  fg_samples : forall c c', rel 0 c c' -> cv_samples I c = cv_samples I c';
  fg_fade : forall c c', rel 0 c c' -> cv_fade I c = cv_fade I c';
  fg_process : forall k T m c c' b b', rel k c c' -> block_of w m b -> block_of w m b' -> block_agree T b b' -> T <= m ->
    exists c1 o c1' o', cv_process I c b = Ok (c1, o) /\ cv_process I c' b' = Ok (c1', o') /\
      block_of w m o /\ block_of w m o' /\ rel (age k T m) c1 c1' /\
      forall ch i, T <= i -> D <= age k T i -> nth i (nth ch o []) s0 = nth i (nth ch o' []) s0
}.

Section Twins.
  Context {A : arith} (I : conv_if A).
  Notation engine := (engine I).
  Notation held := (held I).
  Variables (w D : nat) (new : cv I -> Prop) (rel : nat -> cv I -> cv I -> Prop).
  Hypothesis Hw : 0 < w.
  Hypothesis HF : forgets I w D new rel.

  Definition hrel (k : nat) (h h' : held) : Prop := h_id I h = h_id I h' /\ rel k (h_cv I h) (h_cv I h').
  Definition hnew (h h' : held) : Prop := forall k, hrel k h h'.
  Inductive orel (P : held -> held -> Prop) : option held -> option held -> Prop :=
  | onone : orel P None None
  | osome h h' : P h h' -> orel P (Some h) (Some h').
  Lemma orel_mono (P Q : held -> held -> Prop) o o' : (forall h h', P h h' -> Q h h') -> orel P o o' -> orel Q o o'.
  Proof. intros H []; constructor; auto. Qed.
  Lemma hrel_down k j h h' : hrel k h h' -> j <= k -> hrel j h h'.
  Proof. intros [H1 H2] Hj. split; auto. eapply (fg_down _ _ _ _ _ HF); eauto. Qed.

  Definition bufs (P : option nat) (b b' : audio A) : Prop := match P with Some M => 0 < M /\ block_of w M b /\ block_of w M b' | None => True end.
  (** the same engine apart from the convolvers: the active ones are related by [C], those fading in by [F] *)
  Record twin (P : option nat) (C F : held -> held -> Prop) (e e' : engine) : Prop := {
    w_conv : orel C (e_conv I e) (e_conv I e');
    w_fade : orel F (e_fade I e) (e_fade I e');
    w_pend : orel hnew (e_pending I e) (e_pending I e');
    w_cmds : Forall2 hnew (e_commands I e) (e_commands I e');
    w_notes : Forall2 (orel (hrel 0)) (e_notes I e) (e_notes I e');
    w_in : e_in I e = e_in I e';
    w_out : e_out I e = e_out I e';
    w_buf : bufs P (e_buffer I e) (e_buffer I e');
    w_bounds : e_bounds I e = e_bounds I e';
    w_strat : e_strategy I e = e_strategy I e';
    w_busy : e_cmd_busy I e = e_cmd_busy I e';
    w_nbusy : e_note_busy I e = e_note_busy I e';
    w_env : e_env I e = e_env I e';
    w_log : e_log I e = e_log I e';
    w_ok : Forall (delivers_ok I new) (e_env I e)
  }.
  Lemma twin_mono P (C F C' F' : held -> held -> Prop) e e' : (forall h h', C h h' -> C' h h') -> (forall h h', F h h' -> F' h h') ->
    twin P C F e e' -> twin P C' F' e e'.
  Proof. intros H1 H2 []. constructor; auto; eapply orel_mono; eauto. Qed.

  Lemma twin_with P (C F C' F' : held -> held -> Prop) e e' : twin P C F e e' -> orel C' (e_conv I e) (e_conv I e') ->
    orel F' (e_fade I e) (e_fade I e') -> twin P C' F' e e'.
  Proof. intros []. constructor; auto. Qed.

  Lemma id_eq k h h' : hrel k h h' -> h_id I h = h_id I h'. Proof. now intros []. Qed.
  Lemma destroy_eq t o o' : orel (hrel 0) o o' -> destroy I t o = destroy I t o'.
  Proof. intros []; cbn [destroy]; auto. erewrite id_eq; eauto. Qed.

  Lemma act_twin P C F e e' a : (forall h, a = Deliver I h -> new (h_cv I h)) -> twin P C F e e' -> twin P C F (act I e a) (act I e' a).
  Proof.
    intros Ha H. destruct a as [h| |]; cbn [act].
    - rewrite (F2_length (w_cmds _ _ _ _ _ H)), (w_busy _ _ _ _ _ H). destruct (_ <? _).
      + destruct H. constructor; ecbn; auto.
        * apply Forall2_app; auto. constructor; [|constructor]. intros k. split; auto. apply HF. now apply Ha.
        * congruence.
      + destruct H. constructor; ecbn; auto. congruence.
    - pose proof (w_notes _ _ _ _ _ H) as HN. inversion HN as [E1 E2|n n' t t' Hn Ht E1 E2]; auto.
      destruct H. constructor; ecbn; auto; try congruence. f_equal; auto. now apply destroy_eq.
    - destruct H. constructor; ecbn; auto.
  Qed.
  Lemma acts_twin P C F l : delivers_ok I new l -> forall e e', twin P C F e e' -> twin P C F (acts I l e) (acts I l e').
  Proof.
    unfold acts. induction l as [|a l IH]; intros Hl e e' H; [exact H|]. cbn [fold_left]. apply IH.
    - intros h Hh. apply Hl. now right.
    - apply act_twin; auto. intros h ->. apply Hl. now left.
  Qed.
  Lemma interrupt_twin P C F e e' : twin P C F e e' -> twin P C F (interrupt I e) (interrupt I e').
  Proof.
    intros H. unfold interrupt. pose proof (w_ok _ _ _ _ _ H) as HO. rewrite <- (w_env _ _ _ _ _ H). destruct (e_env I e) as [|l t] eqn:E; auto.
    inversion HO; subst. apply acts_twin; auto. destruct H. constructor; ecbn; auto.
  Qed.
  Lemma push_note_twin P C F n n' e e' : orel (hrel 0) n n' -> twin P C F e e' -> twin P C F (push_note I n e) (push_note I n' e').
  Proof.
    intros Hn H. unfold push_note. apply interrupt_twin in H. cbv zeta. set (e1 := interrupt I e) in *. set (e1' := interrupt I e') in *. clearbody e1 e1'.
    rewrite (F2_length (w_notes _ _ _ _ _ H)), (w_nbusy _ _ _ _ _ H). destruct (_ <? _); destruct H; constructor; ecbn; auto.
    - apply Forall2_app; auto.
    - rewrite w_log0. f_equal. now apply destroy_eq.
  Qed.

  (** where the two convolvers stand: [k] samples after the inputs differed *)
  Definition stale (e : engine) : bool :=
    match e_fade I e, e_strategy I e with Some _, kInOut => negb (sm_smoothing (e_out I e)) | _, _ => false end.
  Definition waiting (e : engine) : bool :=
    match e_strategy I e with kInOut => sm_smoothing (e_out I e) | kCrossfade => false end.
  Definition Cof (k : nat) (e : engine) : held -> held -> Prop := hrel (if stale e then 0 else k).
  Definition Fof (k : nat) (e : engine) : held -> held -> Prop := if waiting e then hnew else hrel k.
  Definition good (P : option nat) (k : nat) (e e' : engine) : Prop := twin P (Cof k e) (Fof k e) e e'.

  Lemma Cof_weak k e h h' : hrel k h h' -> Cof k e h h'.
  Proof. unfold Cof. intros H. eapply hrel_down; eauto. destruct (stale e); lia. Qed.
  Lemma Fof_weak k e h h' : hnew h h' -> Fof k e h h'.
  Proof. unfold Fof. intros H. destruct (waiting e); auto. Qed.
  Lemma F_rel k e h h' : Fof k e h h' -> hrel k h h'.
  Proof. unfold Fof. destruct (waiting e); auto. Qed.
  Lemma C_rel0 k e h h' : Cof k e h h' -> hrel 0 h h'.
  Proof. unfold Cof. intros H. eapply hrel_down; eauto. lia. Qed.
  (** the slots of the caller decide *)
  Lemma good_same P k e e' e1 : good P k e e' -> e_fade I e1 = e_fade I e -> e_strategy I e1 = e_strategy I e -> e_out I e1 = e_out I e ->
    Cof k e1 = Cof k e /\ Fof k e1 = Fof k e.
  Proof. intros _ H1 H2 H3. unfold Cof, Fof, stale, waiting. now rewrite H1, H2, H3. Qed.

  Lemma begin_fade_twin P k C e e' : twin P C hnew e e' -> (forall h h', C h h' -> hrel k h h') ->
    Rres (good P k) (eng_begin_fade I e) (eng_begin_fade I e').
  Proof.
    intros H HC. unfold eng_begin_fade. rewrite <- (w_bounds _ _ _ _ _ H).
    pose proof (w_fade _ _ _ _ _ H) as Hf. destruct Hf as [|f f' Hf]; [constructor|]. destruct (e_bounds I e) as [b|]; [|constructor].
    rewrite <- (fg_samples _ _ _ _ _ HF _ _ (proj2 (Hf 0))), <- (fg_fade _ _ _ _ _ HF _ _ (proj2 (Hf 0))).
    destruct (fade_of b _ _) as [[s n]| |]; cbn [bind]; constructor.
    unfold good. eapply (twin_mono P C hnew).
    - intros h h' Hh. apply Cof_weak. auto.
    - intros h h' Hh. apply Fof_weak, Hh.
    - destruct H. constructor; ecbn; auto; congruence.
  Qed.

  Lemma ready_twin P k e e' h h' : good P k e e' -> hnew h h' -> Rres (good P k) (eng_ready I e h) (eng_ready I e' h').
  Proof.
    intros H Hh. unfold eng_ready. pose proof (w_conv _ _ _ _ _ H) as Hc. inversion Hc as [E1 E2|c c' Hcc E1 E2].
    - constructor. unfold good. destruct (good_same P k e e' (set_slots I (Some h) (e_fade I e) (e_pending I e) e) H eq_refl eq_refl eq_refl) as [-> ->].
      destruct H. constructor; ecbn; auto. constructor. apply Cof_weak, Hh.
    - set (e1 := match e_pending I e with Some p => _ | None => e end). set (e1' := match e_pending I e' with Some p => _ | None => e' end).
      assert (H1 : twin P (Cof k e) (Fof k e) e1 e1' /\ e_fade I e1 = e_fade I e /\ e_strategy I e1 = e_strategy I e /\ e_out I e1 = e_out I e).
      { unfold e1, e1'. pose proof (w_pend _ _ _ _ _ H) as Hp. inversion Hp as [E3 E4|p p' Hpp E3 E4]; auto.
        split.
        - apply push_note_twin; [constructor; apply Hpp|]. destruct H. constructor; ecbn; auto; try (rewrite E1, E2; assumption); constructor; auto.
        - destruct (push_note_slots I (Some p) (set_slots I (Some c) (e_fade I e) None e)) as (G1 & G2 & G3 & G4 & G5 & G6 & G7 & G8 & G9). ecbn_in G2. ecbn_in G5. ecbn_in G7. ecbn_in G6. ecbn_in G8. auto. }
      clearbody e1 e1'. destruct H1 as (H1 & F1 & F2 & F3).
      pose proof (w_fade _ _ _ _ _ H1) as Hf. inversion Hf as [E3 E4|f f' Hff E3 E4].
      + apply (begin_fade_twin P k (Cof k e)).
        * destruct H1. constructor; ecbn; auto. now constructor.
        * intros x x' Hx. unfold Cof, stale in Hx. now rewrite <- F1, <- E3 in Hx.
      + constructor. unfold good.
        destruct (good_same P k e e' (set_slots I (e_conv I e1) (Some f) (Some h) e1) H) as [-> ->]; ecbn; auto; [congruence|].
        destruct H1. constructor; ecbn; auto; now constructor.
  Qed.

  Lemma set_cmds_good P k e e' l l' n : good P k e e' -> Forall2 hnew l l' -> good P k (set_commands I l n e) (set_commands I l' n e').
  Proof.
    intros H Hl. unfold good. destruct (good_same P k e e' (set_commands I l n e) H eq_refl eq_refl eq_refl) as [-> ->].
    destruct H. constructor; ecbn; auto.
  Qed.
  Lemma interrupt_good P k e e' : good P k e e' -> good P k (interrupt I e) (interrupt I e').
  Proof.
    intros H. unfold good. destruct (interrupt_slots I e) as (G1 & G2 & G3 & G4 & G5 & G6 & G7 & G8 & G9).
    destruct (good_same P k e e' (interrupt I e) H) as [-> ->]; auto. now apply interrupt_twin.
  Qed.
  Lemma service_n_good P k : forall n e e', good P k e e' -> Rres (good P k) (eng_service_n I n e) (eng_service_n I n e').
  Proof.
    induction n as [|n IH]; intros e e' H; cbn [eng_service_n]; [now constructor|]. apply interrupt_good in H. cbv zeta.
    set (e1 := interrupt I e) in *. set (e1' := interrupt I e') in *. clearbody e1 e1'.
    pose proof (w_cmds _ _ _ _ _ H) as Hc. inversion Hc as [E1 E2|h h' t t' Hh Ht E1 E2]; [constructor|].
    eapply Rbind; [|intros; apply IH; eassumption]. apply ready_twin; auto. rewrite <- (w_busy _ _ _ _ _ H). now apply set_cmds_good.
  Qed.
  Lemma service_good P k e e' : good P k e e' -> Rres (good P k) (eng_service I e) (eng_service I e').
  Proof.
    intros H. unfold eng_service. rewrite (F2_length (w_cmds _ _ _ _ _ H)). eapply Rbind; [apply service_n_good, H|].
    intros e1 e1' H1. apply interrupt_good in H1. constructor. apply set_cmds_good; auto. apply H1.
  Qed.

  (** a block *)
  Definition samples_agree (k T : nat) (o o' : audio A) : Prop :=
    forall ch i, T <= i -> D <= age k T i -> at_ o ch i = at_ o' ch i.
  Lemma proc_twin k T m o o' b b' : orel (hrel k) o o' -> block_of w m b -> block_of w m b' -> block_agree T b b' -> T <= m ->
    exists o1 x o1' x', proc I o b = Ok (o1, x) /\ proc I o' b' = Ok (o1', x') /\ block_of w m x /\ block_of w m x' /\
      orel (hrel (age k T m)) o1 o1' /\ samples_agree k T x x' /\ (o1 = None <-> o = None).
  Proof.
    intros H Hb Hb' Ha HT. destruct H as [|h h' [Hi Hr]]; cbn [proc].
    - exists None, b, None, b'. repeat split; auto; try apply Hb; try apply Hb'; [constructor|]. intros ch i H1 _. now apply Ha.
    - destruct (fg_process _ _ _ _ _ HF k T m _ _ b b' Hr Hb Hb' Ha HT) as (c1 & x & c1' & x' & E1 & E2 & B1 & B2 & R & S).
      rewrite E1, E2. cbn [bind]. eexists _, x, _, x'. split; [reflexivity|]. split; [reflexivity|]. split; auto. split; auto.
      split; [constructor; split; auto|]. split; [exact S|]. split; discriminate.
  Qed.
  Lemma mk_agree k T m f f' : (forall ch i, T <= i -> D <= age k T i -> f ch i = f' ch i) ->
    samples_agree k T (@mk (sample A) w m f) (mk w m f').
  Proof.
    intros H ch i H1 H2. unfold at_. destruct (Nat.lt_ge_cases ch w) as [Hc|Hc].
    - rewrite !mk_nth by auto. destruct (Nat.lt_ge_cases i m) as [Hi|Hi]; [rewrite !tab_nth by auto; auto|].
      rewrite !nth_overflow; auto; rewrite tab_length; lia.
    - rewrite !(nth_overflow (mk w m _)); auto; rewrite mk_length; lia.
  Qed.

  Lemma reset_fade_twin P C F e e' : twin P C F e e' -> twin P C F (eng_reset_fade I e) (eng_reset_fade I e').
  Proof. intros []. constructor; ecbn; auto; congruence. Qed.
  Lemma finish_twin P k e e' : twin P (hrel 0) (hrel k) e e' -> Rres (good P k) (eng_finish I e) (eng_finish I e').
  Proof.
    intros H. unfold eng_finish. cbv zeta.
    assert (H1 : twin P (hrel 0) (hrel k) (push_note I (e_conv I e) (set_slots I None (e_fade I e) (e_pending I e) e))
                                          (push_note I (e_conv I e') (set_slots I None (e_fade I e') (e_pending I e') e'))).
    { apply push_note_twin; [apply H|]. destruct H. constructor; ecbn; auto. constructor. }
    set (e1 := push_note I _ _) in *. set (e1' := push_note I _ _) in *. clearbody e1 e1'. ecbn.
    pose proof (w_pend _ _ _ _ _ H1) as Hp. inversion Hp as [E3 E4|p p' Hpp E3 E4].
    - constructor. unfold good. eapply (twin_mono P (hrel k) (hrel k)).
      + intros h h' Hh. now apply Cof_weak.
      + unfold Fof, waiting. ecbn. unfold sm_smoothing. cbn. destruct (e_strategy I e1); auto.
      + destruct H1. constructor; ecbn; auto; try congruence; constructor.
    - apply (begin_fade_twin P k (hrel k)); auto. destruct H1. constructor; ecbn; auto; try congruence; constructor; auto.
  Qed.

  Lemma process_good M k T m e e' b b' : good (Some M) k e e' -> m <= M -> T <= m ->
    block_of w m b -> block_of w m b' -> block_agree T b b' ->
    Rres (Rpair (good (Some M) (age k T m)) (fun o o' => block_of w m o /\ block_of w m o' /\ samples_agree k T o o')) (eng_process I e b) (eng_process I e' b').
  Proof.
    intros H Hm HT Hb Hb' Ha. unfold eng_process. eapply Rbind; [apply service_good, H|]. clear e e' H. intros e e' H.
    pose proof (w_fade _ _ _ _ _ H) as Hf. pose proof (w_buf _ _ _ _ _ H) as (HM & HB & HB').
    inversion Hf as [E1 E2|f f' Hff E1 E2].
    - (* no fade *)
      assert (Hc : orel (hrel k) (e_conv I e) (e_conv I e')).
      { eapply orel_mono; [|apply H]. unfold Cof, stale. now rewrite <- E1. }
      destruct (proc_twin k T m _ _ b b' Hc Hb Hb' Ha HT) as (c1 & x & c1' & x' & P1 & P2 & B1 & B2 & R & S & _).
      rewrite P1, P2. cbn [bind]. constructor. constructor; [|auto]. unfold good.
      apply (twin_with _ (hrel (age k T m)) (Fof k e)); ecbn.
      + destruct H. constructor; ecbn; auto; constructor.
      + eapply orel_mono; [|exact R]. intros h h'. apply Cof_weak.
      + constructor.
    - rewrite <- (w_strat _ _ _ _ _ H). 
      assert (Hk : forall h h', Fof k e h h' -> hrel k h h') by apply F_rel.
      assert (Hff' : orel (hrel k) (Some f) (Some f')) by (constructor; auto).
      eapply Rbind with (P := Rpair (fun e1 e1' => twin (Some M) (Cof (age k T m) e1) (Fof (age k T m) e1) e1 e1')
                                    (fun o o' => block_of w m o /\ block_of w m o' /\ samples_agree k T o o')).
      + destruct (e_strategy I e) eqn:Es.
        * destruct (sm_smoothing (e_out I e)) eqn:Eo.
          -- (* falling: the one fading in waits *)
             assert (Hc : orel (hrel k) (e_conv I e) (e_conv I e')).
             { eapply orel_mono; [|apply H]. unfold Cof, stale. now rewrite <- E1, Es, Eo. }
             assert (Hn : orel hnew (Some f) (Some f')).
             { constructor. unfold Fof, waiting in Hff. now rewrite Es, Eo in Hff. }
             destruct (proc_twin k T m _ _ b b' Hc Hb Hb' Ha HT) as (c1 & x & c1' & x' & P1 & P2 & B1 & B2 & R & S & _).
             rewrite (in_out_eq_out I w Hw m e b c1 x), (in_out_eq_out I w Hw m e' b' c1' x') by (auto; now rewrite <- (w_out _ _ _ _ _ H)).
             constructor. constructor.
             ++ apply (twin_with _ (hrel (age k T m)) hnew); ecbn.
                ** destruct H. constructor; ecbn; auto; try congruence; rewrite <- E1, <- E2; exact Hn.
                ** eapply orel_mono; [|exact R]. intros h h'. apply Cof_weak.
                ** rewrite <- E1, <- E2. eapply orel_mono; [|exact Hn]. intros h h'. apply Fof_weak.
             ++ split; [apply shaped_mk|]. split; [apply shaped_mk|]. apply mk_agree. intros ch i H1 H2.
                rewrite <- (w_out _ _ _ _ _ H). f_equal. now apply S.
          -- (* rising: the old one is not heard any more *)
             destruct (proc_twin k T m _ _ b b' Hff' Hb Hb' Ha HT) as (c1 & x & c1' & x' & P1 & P2 & B1 & B2 & R & S & Hne). rewrite E1 in P1. rewrite E2 in P2.
             rewrite (in_out_eq_in I w Hw m e b c1 x), (in_out_eq_in I w Hw m e' b' c1' x') by (auto; now rewrite <- (w_out _ _ _ _ _ H)).
             constructor. constructor.
             ++ apply (twin_with _ (hrel 0) (hrel (age k T m))); ecbn.
                ** destruct H. constructor; ecbn; auto; try congruence. eapply orel_mono; [|exact w_conv0]. intros h h'. apply C_rel0.
                ** eapply orel_mono; [|apply H]. intros h h' Hh. apply C_rel0 in Hh. unfold Cof, stale. ecbn. 
                   destruct c1 as [c1|]; [rewrite Es, Eo; exact Hh|]. destruct Hne as [Hne _]. discriminate (Hne eq_refl).
                ** eapply orel_mono; [|exact R]. unfold Fof, waiting. ecbn. now rewrite Es, Eo.
             ++ split; [apply shaped_mk|]. split; [apply shaped_mk|]. apply mk_agree. intros ch i H1 H2.
                rewrite <- (w_in _ _ _ _ _ H). f_equal. now apply S.
        * assert (Hc : orel (hrel k) (e_conv I e) (e_conv I e')).
          { eapply orel_mono; [|apply H]. unfold Cof, stale. now rewrite <- E1, Es. }
          destruct (proc_twin k T m _ _ b b' Hc Hb Hb' Ha HT) as (c1 & x & c1' & x' & P1 & P2 & B1 & B2 & R & S & _).
          destruct (proc_twin k T m _ _ b b' Hff' Hb Hb' Ha HT) as (f1 & y & f1' & y' & P3 & P4 & B3 & B4 & R' & S' & _). rewrite E1 in P3. rewrite E2 in P4.
          destruct (crossfade_eq I w Hw M m e b c1 x f1 y HB HM Hm Hb P1 B1 P3 B3) as (buf & Hbuf & ->).
          destruct (crossfade_eq I w Hw M m e' b' c1' x' f1' y' HB' HM Hm Hb' P2 B2 P4 B4) as (buf' & Hbuf' & ->).
          constructor. constructor.
          -- apply (twin_with _ (hrel (age k T m)) (hrel (age k T m))); ecbn.
             ++ destruct H. constructor; ecbn; auto; try congruence. split; auto.
             ++ eapply orel_mono; [|exact R]. intros h h'. apply Cof_weak.
             ++ eapply orel_mono; [|exact R']. unfold Fof, waiting. ecbn. now rewrite Es.
          -- split; [apply shaped_mk|]. split; [apply shaped_mk|]. apply mk_agree. intros ch i H1 H2.
             rewrite <- (w_in _ _ _ _ _ H), <- (w_out _ _ _ _ _ H). f_equal; f_equal; [now apply S|now apply S'].
      + intros [e1 o] [e1' o'] HR. inversion HR as [? ? ? ? H1 H2]; subst. clear HR.
        eapply Rbind with (P := good (Some M) (age k T m)).
        * rewrite <- (w_in _ _ _ _ _ H1). destruct (sm_smoothing (e_in I e1)); [now constructor|]. apply finish_twin.
          eapply twin_mono; [| |exact H1]; [intros h h'; apply C_rel0|intros h h'; apply F_rel].
        * intros e2 e2' H3. constructor. constructor; auto.
  Qed.

  (** reset, Clear, prepare *)
  Lemma good_restart P k e e' : good P k e e' -> good P k (eng_reset_fade I e) (eng_reset_fade I e').
  Proof.
    intros H. unfold good. apply (twin_mono _ (Cof k e) (Fof k e)); [| |now apply reset_fade_twin].
    - intros h h'. unfold Cof, stale. ecbn. unfold sm_smoothing. cbn [sm_set sm_count Nat.ltb Nat.leb negb].
      destruct (e_fade I e), (e_strategy I e); auto. destruct (negb _); intros Hh; [exact Hh|]. eapply hrel_down; eauto. lia.
    - intros h h' Hh. apply F_rel in Hh. unfold Fof, waiting. ecbn. unfold sm_smoothing. cbn [sm_set sm_count Nat.ltb Nat.leb].
      destruct (e_strategy I e); exact Hh.
  Qed.
  Lemma reset_hnew h h' : hrel 0 h h' -> hnew {| h_id := h_id I h; h_cv := cv_reset I (h_cv I h) |} {| h_id := h_id I h'; h_cv := cv_reset I (h_cv I h') |}.
  Proof. intros [H1 H2] k. split; auto. now apply HF. Qed.
  Lemma shape_clear M (b : audio A) : block_of w M b -> block_of w M (audio_clear b).
  Proof.
    intros [H1 H2]. unfold audio_clear. split; [now rewrite map_length|]. intros c Hc. apply in_map_iff in Hc as (x & <- & Hx).
    rewrite map_length. auto.
  Qed.
  Lemma buffer_good P k e e' b b' : good P k e e' -> forall P', bufs P' b b' -> good P' k (set_buffer I b e) (set_buffer I b' e').
  Proof.
    intros H P' Hb. unfold good. destruct (good_same P k e e' (set_buffer I b e) H eq_refl eq_refl eq_refl) as [-> ->].
    destruct H. constructor; ecbn; auto.
  Qed.
  Lemma reset_good P k e e' : good P k e e' -> Rres (fun e1 e1' => twin P hnew (Fof k e1) e1 e1') (eng_reset I e) (eng_reset I e').
  Proof.
    intros H. unfold eng_reset. eapply Rbind; [apply service_good, good_restart, H|]. clear e e' H. intros e e' H.
    assert (H1 : good P k (set_buffer I (audio_clear (e_buffer I e)) e) (set_buffer I (audio_clear (e_buffer I e')) e')).
    { eapply buffer_good; eauto. pose proof (w_buf _ _ _ _ _ H) as HB. destruct P as [M|]; auto. destruct HB as (? & ? & ?). split; auto. split; now apply shape_clear. }
    clear H. set (e1 := set_buffer I _ e) in *. set (e1' := set_buffer I _ e') in *. clearbody e1 e1'. cbv zeta. constructor.
    pose proof (w_conv _ _ _ _ _ H1) as Hc. pose proof (w_fade _ _ _ _ _ H1) as Hf. pose proof (w_pend _ _ _ _ _ H1) as Hp.
    assert (Hd : destroy I Caller (e_conv I e1) = destroy I Caller (e_conv I e1')).
    { apply destroy_eq. eapply orel_mono; [|exact Hc]. intros h h'. apply C_rel0. }
    assert (HFf : forall e2, e_strategy I e2 = e_strategy I e1 -> e_out I e2 = e_out I e1 -> Fof k e2 = Fof k e1).
    { intros e2 X1 X2. unfold Fof, waiting. now rewrite X1, X2. }
    inversion Hp as [E1 E2|p p' Hpp E1 E2].
    - inversion Hf as [E3 E4|f f' Hff E3 E4].
      + inversion Hc as [E5 E6|c c' Hcc E5 E6].
        * destruct H1. constructor; ecbn; auto; rewrite <- ?E1, <- ?E2, <- ?E3, <- ?E4, <- ?E5, <- ?E6; constructor.
        * rewrite HFf by reflexivity. destruct H1. constructor; ecbn; auto; try (rewrite <- ?E1, <- ?E2, <- ?E3, <- ?E4; constructor).
          apply reset_hnew. eapply C_rel0; eauto.
      + ecbn. rewrite HFf by reflexivity. destruct H1. constructor; ecbn; auto; try (constructor; fail); try congruence.
        constructor. apply reset_hnew. apply F_rel in Hff. eapply hrel_down; eauto. lia.
    - ecbn. rewrite HFf by reflexivity. destruct H1. constructor; ecbn; auto; try (constructor; fail); try congruence.
      constructor. apply reset_hnew. apply Hpp.
  Qed.
  Lemma hnew_good P k e e' : twin P hnew (Fof k e) e e' -> good P k e e'.
  Proof. intros H. eapply twin_mono; [| |exact H]; auto. intros h h' Hh. now apply Cof_weak. Qed.
  Lemma clear_good P k e e' : good P k e e' -> Rres (good P k) (eng_clear I e) (eng_clear I e').
  Proof.
    intros H. unfold eng_clear. eapply Rbind; [apply (reset_good P k)|].
    - unfold good. destruct (good_same P k e e' (add_log I [ClearCalled] e) H eq_refl eq_refl eq_refl) as [-> ->].
      destruct H. constructor; ecbn; auto; congruence.
    - intros e1 e1' H1. constructor. apply hnew_good. change (Fof k (add_log I _ _)) with (Fof k e1).
      assert (Hd : destroy I Caller (e_conv I e1) ++ destroy I Caller (e_pending I e1) = destroy I Caller (e_conv I e1') ++ destroy I Caller (e_pending I e1')).
      { f_equal; apply destroy_eq; (eapply orel_mono; [|apply H1]); intros h h' Hh; apply Hh. }
      destruct H1. constructor; ecbn; auto; try (constructor; fail). congruence.
  Qed.
  Lemma zeros_block c n : block_of c n (@zeros A c n).
  Proof.
    unfold zeros. split; [apply repeat_length|]. intros l Hl. apply repeat_spec in Hl. subst. apply repeat_length.
  Qed.
  Lemma prepare_good P k e e' s : ps_channels s = w -> 0 < ps_max_block s -> good P k e e' -> Rres (good (Some (ps_max_block s)) k) (eng_prepare I e s) (eng_prepare I e' s).
  Proof.
    intros Hs HM H. unfold eng_prepare. eapply Rbind; [apply Rrefl|]. intros b ? <-.
    assert (H1 : good P k (set_bounds I b e) (set_bounds I b e')).
    { unfold good. destruct (good_same P k e e' (set_bounds I b e) H eq_refl eq_refl eq_refl) as [-> ->]. destruct H. constructor; ecbn; auto. }
    apply (buffer_good _ _ _ _ (zeros (ps_channels s) (ps_max_block s)) (zeros (ps_channels s) (ps_max_block s))) with (P' := Some (ps_max_block s)) in H1.
    2:{ rewrite Hs. split; auto. split; apply zeros_block. }
    pose proof (reset_good _ _ _ _ H1) as H2. destruct H2; constructor. now apply hnew_good.
  Qed.

  (** ** histories *)
  Notation same_call := (same_call I).
  Lemma good_new k env : Forall (delivers_ok I new) env -> good None k (eng_new I env) (eng_new I env).
  Proof. intros H. constructor; cbn; auto; constructor. Qed.

  Definition agree_all (T : nat) (bs bs' : list (audio A)) : Prop :=
    forall c, c < w -> forall i, T <= i -> nth i (channel c bs) s0 = nth i (channel c bs') s0.
  Lemma block_channel m (b : audio A) c : block_of w m b -> c < w -> length (nth c b []) = m.
  Proof. intros [H1 H2] Hc. apply H2, nth_In. lia. Qed.
  Lemma agree_split m T (b b' : audio A) bs bs' : block_of w m b -> block_of w m b' -> agree_all T (b :: bs) (b' :: bs') ->
    (block_agree (Nat.min T m) b b') /\ agree_all (T - m) bs bs'.
  Proof.
    intros Hb Hb' H. split.
    - intros c i Hi. destruct (Nat.lt_ge_cases c w) as [Hc|Hc].
      + pose proof (block_channel m b c Hb Hc) as L. pose proof (block_channel m b' c Hb' Hc) as L'.
        destruct (Nat.lt_ge_cases i m) as [Him|Him]; [|rewrite !nth_overflow; auto; lia].
        specialize (H c Hc i ltac:(lia)). cbn [channel map concat] in H. rewrite !app_nth1 in H by lia. exact H.
      + destruct Hb as [Hb _], Hb' as [Hb' _]. rewrite (nth_overflow b), (nth_overflow b') by lia. reflexivity.
    - intros c Hc i Hi. pose proof (block_channel m b c Hb Hc) as L. pose proof (block_channel m b' c Hb' Hc) as L'.
      specialize (H c Hc (m + i) ltac:(lia)). cbn [channel map concat] in H. rewrite !app_nth2 in H by lia.
      rewrite L, L' in H. now replace (m + i - m) with i in H by lia.
  Qed.
  Lemma agree_cons m T (b b' : audio A) bs bs' : block_of w m b -> block_of w m b' ->
    (forall c i, T <= i -> at_ b c i = at_ b' c i) -> agree_all (T - m) bs bs' -> agree_all T (b :: bs) (b' :: bs').
  Proof.
    intros Hb Hb' H1 H2 c Hc i Hi. pose proof (block_channel m b c Hb Hc) as L. pose proof (block_channel m b' c Hb' Hc) as L'.
    cbn [channel map concat]. destruct (Nat.lt_ge_cases i m) as [Him|Him].
    - rewrite !app_nth1 by lia. now apply H1.
    - rewrite !app_nth2 by lia. rewrite L, L'. apply H2; auto. lia.
  Qed.
  Lemma same_block m (b b' : audio A) : same_shape b b' -> block_of w m b -> block_of w m b'.
  Proof.
    intros E [H1 H2]. assert (EL : length b' = length b) by (apply (f_equal (@length _)) in E; now rewrite !map_length in E).
    split; [lia|]. intros c Hc. apply (in_map (@length _)) in Hc. unfold same_shape in E. rewrite <- E in Hc. apply in_map_iff in Hc as (x & <- & Hx). auto.
  Qed.

  (** when the outputs agree: [k] samples since the inputs differed, [T] samples until they agree for good *)
  Definition settled_at (k T : nat) : nat := if T =? 0 then D - k else T + D.
  Lemma run_good : forall l l' P k T e e', good P k e e' -> Forall2 same_call l l' -> legal I w new P l ->
    agree_all T (blocks_in I l) (blocks_in I l') ->
    Rres (Rpair (fun e1 e1' => exists P1 k1, good P1 k1 e1 e1')
                (fun outs outs' => same_shapes outs outs' /\ agree_all (settled_at k T) outs outs'))
      (eng_run I e l) (eng_run I e' l').
  Proof.
    induction l as [|o l IH]; intros l' P k T e e' H Hl HL HA; inversion Hl as [|? o' ? l1 Ho Hl1]; subst.
    { constructor. constructor; [eauto|]. split; [constructor|]. intros c Hc i Hi. reflexivity. }
    cbn [eng_run]. inversion Ho as [b b' Hs|o1 Hnot]; subst.
    - cbn [legal] in HL. destruct HL as [(M & m & -> & Hm & Hb) HL]. cbn [blocks_in flat_map app] in HA.
      pose proof (same_block m b b' Hs Hb) as Hb'. destruct (agree_split m T b b' _ _ Hb Hb' HA) as [A1 A2].
      cbn [eng_step]. rewrite !bind_assoc.
      eapply Rbind; [apply (process_good M k (Nat.min T m) m e e' b b' H); auto; lia|].
      intros [e1 o] [e1' o'] HR. inversion HR as [? ? ? ? G (B1 & B2 & S)]; subst. clear HR. cbn [bind].
      eapply Rbind; [apply (IH l1 (Some M) _ (T - m) e1 e1' G Hl1 HL A2)|].
      intros [e2 os] [e2' os'] HR. inversion HR as [? ? ? ? G2 (S1 & S2)]; subst. constructor. constructor; auto. cbn [app]. split.
      + constructor; auto. red. clear - B1 B2.
        assert (X : forall n (x : audio A), (forall c, In c x -> length c = m) -> length x = n -> map (@length _) x = repeat m n).
        { intros n x Hx <-. induction x as [|a x IH]; cbn; auto. rewrite Hx by now left. f_equal. apply IH. intros; apply Hx. now right. }
        rewrite (X w o), (X w o'); auto; apply B1 || apply B2.
      + apply (agree_cons m); auto.
        * intros c i Hi. unfold settled_at in Hi. apply S.
          -- destruct (Nat.eqb_spec T 0); lia.
          -- unfold age. destruct (Nat.eqb_spec T 0), (Nat.eqb_spec (Nat.min T m) 0); lia.
        * intros c Hc i Hi. apply S2; auto. unfold settled_at, age in *.
          destruct (Nat.eqb_spec T 0), (Nat.eqb_spec (T - m) 0), (Nat.eqb_spec (Nat.min T m) 0); lia.
    - assert (EB : blocks_in I (o' :: l) = blocks_in I l /\ blocks_in I (o' :: l1) = blocks_in I l1).
      { destruct o'; auto. now elim (Hnot b). }
      destruct EB as [EB1 EB2]. rewrite EB1, EB2 in HA.
      assert (Step : exists P1, legal I w new P1 l /\
        Rres (Rpair (good P1 k) (fun x x' => x = [] /\ x' = [])) (eng_step I e o') (eng_step I e' o')).
      { destruct o' as [s|b| | |acts0]; cbn [legal eng_step] in *.
        - destruct HL as [(Hc & HM & _) HL]. exists (Some (ps_max_block s)). split; auto.
          eapply Rbind; [apply (prepare_good P k e e' s); auto|]. intros. constructor. constructor; auto.
        - now elim (Hnot b).
        - exists P. split; [apply HL|]. eapply Rbind; [apply (reset_good P k e e' H)|]. intros x y Hxy. constructor. constructor; auto.
          now apply hnew_good.
        - exists P. split; [apply HL|]. eapply Rbind; [apply (clear_good P k e e' H)|]. intros x y Hxy. constructor. constructor; auto.
        - exists P. split; [apply HL|]. constructor. constructor; auto. unfold good.
          destruct (acts_slots I acts0 e) as (G1 & G2 & G3 & G4 & G5 & G6 & G7 & G8 & G9).
          destruct (good_same P k e e' (acts I acts0 e) H) as [-> ->]; auto. apply acts_twin; auto. apply HL. }
      destruct Step as (P1 & HL1 & Step). eapply Rbind; [exact Step|]. intros [e1 x] [e1' x'] HR. inversion HR as [? ? ? ? G [-> ->]]; subst.
      eapply Rbind; [apply (IH l1 P1 k T e1 e1' G Hl1 HL1 HA)|].
      intros [e2 os] [e2' os'] HR2. inversion HR2; subst. constructor. constructor; auto.
  Qed.

  (** what one sees of the slots *)
  Lemma twin_line P C F e e' : twin P C F e e' -> (forall h h', C h h' -> hrel 0 h h') -> (forall h h', F h h' -> hrel 0 h h') -> line e = line e'.
  Proof.
    intros [] HC HFF. unfold line, in_line. rewrite !map_app.
    assert (O : forall Q o o', orel Q o o' -> (forall h h', Q h h' -> hrel 0 h h') ->
      map (h_id I) match o with Some h => [h] | None => [] end = map (h_id I) match o' with Some h => [h] | None => [] end).
    { intros Q o o' [|h h' Hh] HQ; cbn; auto. f_equal. eapply id_eq. eauto. }
    assert (EC : map (h_id I) (e_commands I e) = map (h_id I) (e_commands I e')).
    { clear - w_cmds0. induction w_cmds0 as [|h h' l l' Hh Hl IH]; cbn [map]; auto. rewrite (proj1 (Hh 0)). now f_equal. }
    rewrite (O _ _ _ w_conv0), (O _ _ _ w_fade0), (O _ _ _ w_pend0), EC; auto.
  Qed.
  Lemma good_line P k e e' : good P k e e' -> line e = line e' /\ e_log I e = e_log I e'.
  Proof.
    intros H. split; [|apply H]. apply (twin_line P (Cof k e) (Fof k e) e e' H).
    - intros h h'. apply C_rel0.
    - intros h h' Hh. apply F_rel in Hh. eapply hrel_down; eauto. lia.
  Qed.
End Twins.

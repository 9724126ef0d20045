(** * Two engines in different arithmetics that are given the same calls

    Samples going in are related by [Qi], samples the convolvers put out by [Qo], levels of the fades by [G], samples the engine puts
    out by [Qm].  If the convolvers and the smoothed values keep these relations, so do the engines: they succeed or fail together,
    keep the same log, and put out related blocks. *)
From Verif.Model Require Import Base Arith Juce Float32 SmoothedValue Convolver ConvolutionEngine.
From Verif.Spec Require Import Transform Signal Engine.
From Verif.Proofs Require Import Lists Blocks SmoothProof Param EngineProof EngineInv.

Section Het.
  Context {A1 A2 : arith} (I1 : conv_if A1) (I2 : conv_if A2).
  Variable w : nat.
  Variables Qi Qo Qm G : sample A1 -> sample A2 -> Prop.
  Variable crel : cv I1 -> cv I2 -> Prop.
  Variable srel : smooth A1 -> smooth A2 -> Prop.
  Variables (okb : bounds -> Prop) (okn : Z -> Prop).
  Definition brel (Q : sample A1 -> sample A2 -> Prop) (m : nat) (b : audio A1) (b' : audio A2) : Prop :=
    block_of w m b /\ block_of w m b' /\ Forall2 (Forall2 Q) b b'.

  Record het_ok : Prop := {
    ho_reset : forall c c', crel c c' -> crel (cv_reset I1 c) (cv_reset I2 c');
    ho_samples : forall c c', crel c c' -> cv_samples I1 c = cv_samples I2 c';
    ho_fade : forall c c', crel c c' -> cv_fade I1 c = cv_fade I2 c';
    ho_process : forall m c c' b b', crel c c' -> brel Qi m b b' ->
      exists c1 c1' o o', cv_process I1 c b = Ok (c1, o) /\ cv_process I2 c' b' = Ok (c1', o') /\ crel c1 c1' /\ brel Qo m o o';
    ho_through : forall x x', Qi x x' -> Qo x x';
    ho_out : forall x x', Qo x x' -> Qm x x';
    ho_mix : forall x x' y y' g g' h h', Qo x x' -> Qo y y' -> G g g' -> G h h' ->
      Qm (sadd (smul x g) (smul y h)) (sadd (smul x' g') (smul y' h'));
    ho_scale : forall x x' g g', Qo x x' -> G g g' -> Qm (smul x g) (smul x' g');
    ho_zero : Qo s0 s0;
    ho_new : srel sm_new sm_new;
    ho_set : forall b v v', srel v v' -> srel (sm_set b v) (sm_set b v');
    ho_begin : forall b n v v', okn n -> srel v v' -> srel (sm_set_target b (sm_reset n v)) (sm_set_target b (sm_reset n v'));
    ho_next : forall v v', srel v v' -> srel (fst (sm_next v)) (fst (sm_next v')) /\ G (snd (sm_next v)) (snd (sm_next v'));
    ho_count : forall v v', srel v v' -> sm_count v = sm_count v';
    ho_length : forall b ir f st n, okb b -> fade_of b ir f = Ok (st, n) -> okn n
  }.
  Hypothesis Hw : 0 < w.
  Hypothesis H : het_ok.

  Inductive hrel : held I1 -> held I2 -> Prop :=
  | MkH i c c' : crel c c' -> hrel {| h_id := i; h_cv := c |} {| h_id := i; h_cv := c' |}.
  Inductive orel : option (held I1) -> option (held I2) -> Prop :=
  | ONone : orel None None
  | OSome h h' : hrel h h' -> orel (Some h) (Some h').
  Inductive arel : action I1 -> action I2 -> Prop :=
  | ADeliver h h' : hrel h h' -> arel (Deliver I1 h) (Deliver I2 h')
  | ADispose : arel (Dispose I1) (Dispose I2)
  | ARelease : arel (Release I1) (Release I2).
  Definition obounds (b : option bounds) : Prop := forall x, b = Some x -> okb x.
  Record erel (P : option nat) (e : engine I1) (e' : engine I2) : Prop := {
    r_conv : orel (e_conv I1 e) (e_conv I2 e');
    r_fade : orel (e_fade I1 e) (e_fade I2 e');
    r_pend : orel (e_pending I1 e) (e_pending I2 e');
    r_in : srel (e_in I1 e) (e_in I2 e');
    r_out : srel (e_out I1 e) (e_out I2 e');
    r_buf : forall M, P = Some M -> 0 < M /\ block_of w M (e_buffer I1 e) /\ block_of w M (e_buffer I2 e');
    r_bounds : e_bounds I1 e = e_bounds I2 e';
    r_okb : obounds (e_bounds I1 e);
    r_strat : e_strategy I1 e = e_strategy I2 e';
    r_cmds : Forall2 hrel (e_commands I1 e) (e_commands I2 e');
    r_busy : e_cmd_busy I1 e = e_cmd_busy I2 e';
    r_notes : Forall2 orel (e_notes I1 e) (e_notes I2 e');
    r_nbusy : e_note_busy I1 e = e_note_busy I2 e';
    r_env : Forall2 (Forall2 arel) (e_env I1 e) (e_env I2 e');
    r_log : e_log I1 e = e_log I2 e'
  }.

  Ltac mke := match goal with HE : erel _ _ _ |- _ => destruct HE end; constructor; ecbn; auto.
  Lemma hrel_id h h' : hrel h h' -> h_id I1 h = h_id I2 h'. Proof. now intros []. Qed.
  Lemma hrel_cv h h' : hrel h h' -> crel (h_cv I1 h) (h_cv I2 h'). Proof. now intros []. Qed.
  Lemma destroy_rel t o o' : orel o o' -> destroy I1 t o = destroy I2 t o'.
  Proof. intros []; [reflexivity|]. cbn. now rewrite (hrel_id _ _ H0). Qed.

  Lemma slots_rel P e e' c f p c' f' p' : erel P e e' -> orel c c' -> orel f f' -> orel p p' ->
    erel P (set_slots I1 c f p e) (set_slots I2 c' f' p' e').
  Proof. intros HE; intros. mke. Qed.
  Lemma log_rel P e e' l : erel P e e' -> erel P (add_log I1 l e) (add_log I2 l e').
  Proof. intros HE. mke. now rewrite r_log0. Qed.
  Lemma smooth_rel P e e' i o i' o' : erel P e e' -> srel i i' -> srel o o' -> erel P (set_smooth I1 i o e) (set_smooth I2 i' o' e').
  Proof. intros HE; intros. mke. Qed.
  Lemma buffer_rel P P' e e' b b' : erel P e e' -> (forall M, P' = Some M -> 0 < M /\ block_of w M b /\ block_of w M b') ->
    erel P' (set_buffer I1 b e) (set_buffer I2 b' e').
  Proof. intros HE; intros. mke. Qed.
  Lemma notes_rel P e e' l l' k : erel P e e' -> Forall2 orel l l' -> erel P (set_notes I1 l k e) (set_notes I2 l' k e').
  Proof. intros HE; intros. mke. Qed.
  Lemma cmds_rel P e e' l l' k : erel P e e' -> Forall2 hrel l l' -> erel P (set_commands I1 l k e) (set_commands I2 l' k e').
  Proof. intros HE; intros. mke. Qed.
  Lemma env_rel P e e' l l' : erel P e e' -> Forall2 (Forall2 arel) l l' -> erel P (set_env I1 l e) (set_env I2 l' e').
  Proof. intros HE; intros. mke. Qed.
  Lemma strat_rel P e e' s : erel P e e' -> erel P (set_strategy I1 s e) (set_strategy I2 s e').
  Proof. intros HE; intros. mke. Qed.
  Lemma bounds_rel P e e' b : erel P e e' -> okb b -> erel P (set_bounds I1 b e) (set_bounds I2 b e').
  Proof. intros HE; intros. mke. intros x E. now injection E as <-. Qed.

  Lemma act_rel P e e' a a' : erel P e e' -> arel a a' -> erel P (act I1 e a) (act I2 e' a').
  Proof.
    intros HE [h h' Hh| |]; cbn [act].
    - rewrite <- (F2_length (r_cmds _ _ _ HE)), <- (r_busy _ _ _ HE), <- (hrel_id _ _ Hh). destruct (_ <? _); apply log_rel; auto.
      apply cmds_rel; auto. apply Forall2_app; [apply HE|]. constructor; auto.
    - pose proof (r_notes _ _ _ HE) as HN. destruct HN as [|n n' t t' Hn Ht]; auto.
      rewrite (destroy_rel _ _ _ Hn), (r_nbusy _ _ _ HE). now apply log_rel, notes_rel.
    - apply notes_rel; auto. apply HE.
  Qed.
  Lemma acts_rel P l l' : Forall2 arel l l' -> forall e e', erel P e e' -> erel P (acts I1 l e) (acts I2 l' e').
  Proof.
    unfold acts. induction 1 as [|a a' l l' Ha Hl IH]; intros e e' HE; [exact HE|]. cbn [fold_left]. apply IH. now apply act_rel.
  Qed.
  Lemma interrupt_rel P e e' : erel P e e' -> erel P (interrupt I1 e) (interrupt I2 e').
  Proof.
    intros HE. unfold interrupt. pose proof (r_env _ _ _ HE) as HV. destruct HV as [|l l' t t' Hl Ht]; auto. apply acts_rel; auto. now apply env_rel.
  Qed.
  Lemma push_rel P n n' e e' : erel P e e' -> orel n n' -> erel P (push_note I1 n e) (push_note I2 n' e').
  Proof.
    intros HE Hn. unfold push_note. cbv zeta. apply interrupt_rel in HE.
    rewrite <- (F2_length (r_notes _ _ _ HE)), <- (r_nbusy _ _ _ HE). destruct (_ <? _).
    - apply notes_rel; auto. apply Forall2_app; [apply HE|]. constructor; auto.
    - rewrite (destroy_rel _ _ _ Hn). now apply log_rel.
  Qed.

  Lemma reset_fade_rel P e e' : erel P e e' -> erel P (eng_reset_fade I1 e) (eng_reset_fade I2 e').
  Proof. intros HE. apply smooth_rel; auto; apply (ho_set H); apply HE. Qed.
  Lemma begin_rel P e e' : erel P e e' -> Rres (erel P) (eng_begin_fade I1 e) (eng_begin_fade I2 e').
  Proof.
    intros HE. unfold eng_begin_fade. pose proof (r_fade _ _ _ HE) as HF. destruct HF as [|f f' Hf]; [constructor|].
    rewrite <- (r_bounds _ _ _ HE). destruct (e_bounds I1 e) as [b|] eqn:EB; [|constructor].
    rewrite <- (ho_samples H _ _ (hrel_cv _ _ Hf)), <- (ho_fade H _ _ (hrel_cv _ _ Hf)).
    destruct (fade_of b _ _) as [[st n]| |] eqn:EF; cbn [bind]; constructor.
    assert (Hn : okn n) by (eapply (ho_length H); [apply (r_okb _ _ _ HE); exact EB|exact EF]).
    unfold eng_set_fade_time. ecbn.
    assert (S1 := ho_begin H true n _ _ Hn (r_in _ _ _ HE)). assert (S2 := ho_begin H false n _ _ Hn (r_out _ _ _ HE)).
    mke.
  Qed.
  Lemma ready_rel P e e' h h' : erel P e e' -> hrel h h' -> Rres (erel P) (eng_ready I1 e h) (eng_ready I2 e' h').
  Proof.
    intros HE Hh. unfold eng_ready. pose proof (r_conv _ _ _ HE) as HC. destruct (e_conv I1 e) as [c|] eqn:Ec; inversion HC as [|? c' Hc]; subst.
    2:{ constructor. apply slots_rel; auto; [now constructor|apply HE|apply HE]. }
    set (e1 := match e_pending I1 e with Some p => _ | None => e end). set (e1' := match e_pending I2 e' with Some p => _ | None => e' end).
    assert (HE1 : erel P e1 e1').
    { unfold e1, e1'. pose proof (r_pend _ _ _ HE) as HP. destruct HP as [|p p' Hp]; auto. apply push_rel; [|now constructor].
      apply slots_rel; auto; [now constructor|apply HE|constructor]. }
    clearbody e1 e1'. pose proof (r_fade _ _ _ HE1) as HF. destruct (e_fade I1 e1) as [f|] eqn:Ef; inversion HF as [|? f' Hf]; subst.
    - constructor. apply slots_rel; auto; try (now constructor). apply HE1.
    - apply begin_rel. apply slots_rel; auto; try apply HE1. now constructor.
  Qed.
  Lemma service_n_rel P : forall n e e', erel P e e' -> Rres (erel P) (eng_service_n I1 n e) (eng_service_n I2 n e').
  Proof.
    induction n as [|n IH]; intros e e' HE; cbn [eng_service_n]; [now constructor|]. apply interrupt_rel in HE. cbv zeta.
    pose proof (r_cmds _ _ _ HE) as HC. destruct HC as [|h h' t t' Hh Ht]; [constructor|]. rewrite <- (r_busy _ _ _ HE).
    eapply (Rbind (P := erel P)); [apply (ready_rel P); [apply cmds_rel; assumption|assumption]|]. intros; now apply IH.
  Qed.
  Lemma service_rel P e e' : erel P e e' -> Rres (erel P) (eng_service I1 e) (eng_service I2 e').
  Proof.
    intros HE. unfold eng_service. rewrite <- (F2_length (r_cmds _ _ _ HE)). eapply Rbind; [apply service_n_rel; exact HE|]. intros x y Hx. cbv zeta.
    constructor. apply interrupt_rel in Hx. apply cmds_rel; auto. apply Hx.
  Qed.
  Lemma finish_rel P e e' : erel P e e' -> Rres (erel P) (eng_finish I1 e) (eng_finish I2 e').
  Proof.
    intros HE. unfold eng_finish. cbv zeta.
    assert (HE1 : erel P (push_note I1 (e_conv I1 e) (set_slots I1 None (e_fade I1 e) (e_pending I1 e) e))
                         (push_note I2 (e_conv I2 e') (set_slots I2 None (e_fade I2 e') (e_pending I2 e') e'))).
    { apply push_rel; [|apply HE]. apply slots_rel; auto; try apply HE. constructor. }
    set (e1 := push_note I1 _ _) in *. set (e1' := push_note I2 _ _) in *. clearbody e1 e1'.
    assert (HE2 : erel P (eng_reset_fade I1 (set_slots I1 (e_fade I1 e1) None (e_pending I1 e1) e1))
                         (eng_reset_fade I2 (set_slots I2 (e_fade I2 e1') None (e_pending I2 e1') e1'))).
    { apply reset_fade_rel, slots_rel; auto; try apply HE1. constructor. }
    set (e2 := eng_reset_fade I1 _) in *. set (e2' := eng_reset_fade I2 _) in *. clearbody e2 e2'.
    pose proof (r_pend _ _ _ HE2) as HP. destruct HP as [|p p' Hp]; [now constructor|]. apply begin_rel.
    apply slots_rel; auto; [apply HE2|now constructor|constructor].
  Qed.

  Lemma brel_weaken (P Q : sample A1 -> sample A2 -> Prop) m b b' : (forall x y, P x y -> Q x y) -> brel P m b b' -> brel Q m b b'.
  Proof.
    intros HP (B1 & B2 & B3). split; auto. split; auto. clear B1 B2. induction B3 as [|c c' b b' Hc _ IH]; constructor; auto.
    clear IH. induction Hc; constructor; auto.
  Qed.
  Lemma brel_at (Q : sample A1 -> sample A2 -> Prop) m b b' c i : Q s0 s0 -> brel Q m b b' -> Q (at_ b c i) (at_ b' c i).
  Proof.
    intros H0 (_ & _ & HB). unfold at_. assert (HC : Forall2 Q (nth c b []) (nth c b' [])).
    { revert c. induction HB; intros [|c]; cbn; auto. }
    revert i. induction HC; intros [|i]; cbn; auto.
  Qed.
  Lemma brel_mk (Q : sample A1 -> sample A2 -> Prop) m f g : (forall c i, Q (f c i) (g c i)) -> brel Q m (mk w m f) (mk w m g).
  Proof.
    intros HQ. split; [apply shaped_mk|]. split; [apply shaped_mk|].
    assert (FT : forall X Y (R : X -> Y -> Prop) n (a : nat -> X) (b : nat -> Y), (forall i, R (a i) (b i)) -> Forall2 R (tab n a) (tab n b)).
    { intros X Y R n a b HR. unfold tab. induction (seq 0 n); cbn; constructor; auto. }
    unfold mk. apply FT. intros c. apply FT. auto.
  Qed.
  Lemma proc_rel m o o' b b' : orel o o' -> brel Qi m b b' ->
    exists o1 o1' x x', proc I1 o b = Ok (o1, x) /\ proc I2 o' b' = Ok (o1', x') /\ orel o1 o1' /\ brel Qo m x x'.
  Proof.
    intros [|h h' Hh] HB.
    - exists None, None, b, b'. split; [reflexivity|]. split; [reflexivity|]. split; [constructor|]. eapply brel_weaken; [apply (ho_through H)|exact HB].
    - destruct (ho_process H m _ _ _ _ (hrel_cv _ _ Hh) HB) as (c1 & c1' & x & x' & E1 & E2 & HC & HX). cbn [proc]. rewrite E1, E2. cbn [bind].
      rewrite <- (hrel_id _ _ Hh). eexists _, _, _, _. split; [reflexivity|]. split; [reflexivity|]. split; auto. constructor. now constructor.
  Qed.
  Lemma iter_rel n : forall v v', srel v v' -> srel (sm_iter n v) (sm_iter n v').
  Proof. induction n as [|n IH]; intros v v' Hv; [exact Hv|]. rewrite !sm_iter_S. apply IH. now apply (ho_next H). Qed.
  Lemma gain_rel v v' i : srel v v' -> G (gain v i) (gain v' i).
  Proof. intros Hv. unfold gain. apply (ho_next H). now apply iter_rel. Qed.

  Definition out_rel m (p : engine I1 * audio A1) (p' : engine I2 * audio A2) : Prop := brel Qm m (snd p) (snd p').
  Lemma process_rel M m e e' b b' : erel (Some M) e e' -> m <= M -> brel Qi m b b' ->
    Rres (fun p p' => erel (Some M) (fst p) (fst p') /\ brel Qm m (snd p) (snd p')) (eng_process I1 e b) (eng_process I2 e' b').
  Proof.
    intros HE Hm HB. unfold eng_process. eapply Rbind; [apply service_rel; exact HE|]. clear e e' HE. intros e e' HE. cbv beta.
    destruct (proc_rel m _ _ b b' (r_conv _ _ _ HE) HB) as (c & c' & x & x' & Ec & Ec' & HC & HX).
    destruct (proc_rel m _ _ b b' (r_fade _ _ _ HE) HB) as (f & f' & y & y' & Ef & Ef' & HF & HY).
    destruct HB as (B1 & B2 & B3). destruct (r_buf _ _ _ HE M eq_refl) as (M0 & U1 & U2).
    pose proof (r_fade _ _ _ HE) as HFd. destruct (e_fade I1 e) as [h|] eqn:EF; inversion HFd as [EF'|? h' Hh EF0 EF']; subst.
    - eapply (Rbind (P := fun p p' => erel (Some M) (fst p) (fst p') /\ brel Qm m (snd p) (snd p'))).
      + rewrite <- (r_strat _ _ _ HE). pose proof HX as (X1 & X2 & _). pose proof HY as (Y1 & Y2 & _). destruct (e_strategy I1 e).
        * destruct (sm_smoothing (e_out I1 e)) eqn:Es.
          -- assert (Es' : sm_smoothing (e_out I2 e') = true) by (unfold sm_smoothing in *; now rewrite <- (ho_count H _ _ (r_out _ _ _ HE))).
             rewrite (in_out_eq_out I1 w Hw m e b c x B1 Es Ec X1), (in_out_eq_out I2 w Hw m e' b' c' x' B2 Es' Ec' X2). constructor. cbn [fst snd]. split.
             ++ apply smooth_rel; [|apply HE|apply iter_rel, HE]. apply slots_rel; auto; apply HE.
             ++ apply brel_mk. intros ch i. apply (ho_scale H); [eapply brel_at; [apply (ho_zero H)|exact HX]|apply gain_rel, HE].
          -- assert (Es' : sm_smoothing (e_out I2 e') = false) by (unfold sm_smoothing in *; now rewrite <- (ho_count H _ _ (r_out _ _ _ HE))).
             rewrite <- EF in Ef.
             rewrite (in_out_eq_in I1 w Hw m e b f y B1 Es Ef Y1), (in_out_eq_in I2 w Hw m e' b' f' y' B2 Es' Ef' Y2). constructor. cbn [fst snd]. split.
             ++ apply smooth_rel; [|apply iter_rel, HE|apply HE]. apply slots_rel; auto; apply HE.
             ++ apply brel_mk. intros ch i. apply (ho_scale H); [eapply brel_at; [apply (ho_zero H)|exact HY]|apply gain_rel, HE].
        * rewrite <- EF in Ef.
          destruct (crossfade_eq I1 w Hw M m e b c x f y U1 M0 Hm B1 Ec X1 Ef Y1) as (buf & V1 & E1).
          destruct (crossfade_eq I2 w Hw M m e' b' c' x' f' y' U2 M0 Hm B2 Ec' X2 Ef' Y2) as (buf' & V2 & E2).
          rewrite E1, E2. constructor. cbn [fst snd]. split.
          -- apply (buffer_rel (Some M)); [|intros M' EM; injection EM as <-; auto]. apply smooth_rel; [|apply iter_rel, HE|apply iter_rel, HE].
             apply slots_rel; auto. apply HE.
          -- apply brel_mk. intros ch i. apply (ho_mix H); try (eapply brel_at; [apply (ho_zero H)|eassumption]); apply gain_rel, HE.
      + intros [e1 o1] [e1' o1'] [G1 G2]. cbn [fst snd] in *.
        assert (Es : sm_smoothing (e_in I1 e1) = sm_smoothing (e_in I2 e1')) by (unfold sm_smoothing; now rewrite (ho_count H _ _ (r_in _ _ _ G1))).
        rewrite <- Es. eapply (Rbind (P := erel (Some M))); [destruct (sm_smoothing _); [now constructor|now apply finish_rel]|].
        intros e2 e2' HE2. constructor. auto.
    - rewrite Ec, Ec'. cbn [bind]. constructor. cbn [fst snd]. split; [|eapply brel_weaken; [apply (ho_out H)|exact HX]]. 
      apply slots_rel; auto; [constructor|apply HE].
  Qed.

  Lemma reset_rel P e e' : erel P e e' -> Rres (erel P) (eng_reset I1 e) (eng_reset I2 e').
  Proof.
    intros HE. unfold eng_reset. eapply Rbind; [apply service_rel, reset_fade_rel; exact HE|]. clear e e' HE. intros e e' HE. cbv zeta. constructor.
    assert (HE1 : erel P (set_buffer I1 (audio_clear (e_buffer I1 e)) e) (set_buffer I2 (audio_clear (e_buffer I2 e')) e')).
    { apply (buffer_rel P); auto. intros M EM. destruct (r_buf _ _ _ HE M EM) as (M0 & U1 & U2). split; auto.
      assert (CB : forall (A : arith) (b : audio A), block_of w M b -> block_of w M (audio_clear b)).
      { intros A b [L S]. unfold audio_clear. split; [now rewrite map_length|]. intros c Hc. apply in_map_iff in Hc as (c' & <- & Hc). rewrite map_length. auto. }
      auto. }
    set (e1 := set_buffer I1 _ _) in *. set (e1' := set_buffer I2 _ _) in *. clearbody e1 e1'.
    set (e2 := match e_pending I1 e1, e_fade I1 e1 with Some p, f => _ | None, Some f => _ | None, None => _ end).
    set (e2' := match e_pending I2 e1', e_fade I2 e1' with Some p, f => _ | None, Some f => _ | None, None => _ end).
    assert (HE2 : erel P e2 e2').
    { unfold e2, e2'. rewrite <- (destroy_rel Caller _ _ (r_conv _ _ _ HE1)).
      pose proof (r_pend _ _ _ HE1) as HP. pose proof (r_fade _ _ _ HE1) as HF. destruct HP as [|p p' Hp].
      - destruct HF as [|f f' Hf]; auto. apply log_rel, slots_rel; auto; constructor; auto.
      - apply log_rel, slots_rel; auto; constructor; auto. }
    clearbody e2 e2'. pose proof (r_conv _ _ _ HE2) as HC. destruct HC as [|c c' Hc]; auto.
    apply slots_rel; auto; try apply HE2. constructor. rewrite <- (hrel_id _ _ Hc). constructor. apply (ho_reset H). now apply hrel_cv.
  Qed.
  Lemma clear_rel P e e' : erel P e e' -> Rres (erel P) (eng_clear I1 e) (eng_clear I2 e').
  Proof.
    intros HE. unfold eng_clear. eapply Rbind; [apply reset_rel, log_rel; exact HE|]. clear e e' HE. intros e e' HE. constructor.
    rewrite <- (destroy_rel Caller _ _ (r_conv _ _ _ HE)), <- (destroy_rel Caller _ _ (r_pend _ _ _ HE)).
    apply log_rel, slots_rel; auto; try constructor. apply HE.
  Qed.
  Lemma zeros_shape (A : arith) m : block_of w m (@zeros A w m).
  Proof. unfold zeros. split; [apply repeat_length|]. intros c Hc. apply repeat_spec in Hc as ->. apply repeat_length. Qed.
  Lemma prepare_rel P e e' s : erel P e e' -> spec_ok w s -> (forall b, engine_bounds s = Ok b -> okb b) ->
    Rres (erel (Some (ps_max_block s))) (eng_prepare I1 e s) (eng_prepare I2 e' s).
  Proof.
    intros HE (W & M0 & _) Hb. unfold eng_prepare. destruct (engine_bounds s) as [b| |] eqn:EB; cbn [bind]; [|constructor..].
    apply reset_rel. apply (buffer_rel P); [apply bounds_rel; auto|]. intros M EM. injection EM as <-. rewrite W. split; auto. split; apply zeros_shape.
  Qed.

  (** related histories *)
  Inductive oprel : option nat -> op I1 -> op I2 -> option nat -> Prop :=
  | OpPrepare P s : spec_ok w s -> (forall b, engine_bounds s = Ok b -> okb b) -> oprel P (Prepare I1 s) (Prepare I2 s) (Some (ps_max_block s))
  | OpProcess M m b b' : m <= M -> brel Qi m b b' -> oprel (Some M) (Process I1 b) (Process I2 b') (Some M)
  | OpReset M : oprel (Some M) (Reset I1) (Reset I2) (Some M)
  | OpClear M : oprel (Some M) (Clear I1) (Clear I2) (Some M)
  | OpOthers P l l' : Forall2 arel l l' -> oprel P (Others I1 l) (Others I2 l') P.
  Inductive oprels : option nat -> list (op I1) -> list (op I2) -> Prop :=
  | OpNil P : oprels P [] []
  | OpCons P P' o o' l l' : oprel P o o' P' -> oprels P' l l' -> oprels P (o :: l) (o' :: l').
  Definition block_rel (b : audio A1) (b' : audio A2) : Prop := Forall2 (Forall2 Qm) b b'.

  Lemma step_rel P P' e e' o o' : erel P e e' -> oprel P o o' P' ->
    Rres (fun p p' => erel P' (fst p) (fst p') /\ Forall2 block_rel (snd p) (snd p')) (eng_step I1 e o) (eng_step I2 e' o').
  Proof.
    intros HE HO. destruct HO as [P s Hs Hb|M m b b' Hm HB|M|M|P l l' Hl]; cbn [eng_step].
    - eapply Rbind; [eapply prepare_rel; eauto|]. intros x y Hxy. constructor. split; [exact Hxy|constructor].
    - eapply Rbind; [eapply process_rel; eauto|]. intros [x o] [y o'] [H1 H2]. constructor. split; auto. constructor; auto. apply H2.
    - eapply Rbind; [eapply reset_rel; eauto|]. intros x y Hxy. constructor. split; [exact Hxy|constructor].
    - eapply Rbind; [eapply clear_rel; eauto|]. intros x y Hxy. constructor. split; [exact Hxy|constructor].
    - constructor. split; [now apply acts_rel|constructor].
  Qed.
  Lemma run_rel P l l' : oprels P l l' -> forall e e', erel P e e' ->
    Rres (fun p p' => (exists P', erel P' (fst p) (fst p')) /\ Forall2 block_rel (snd p) (snd p')) (eng_run I1 e l) (eng_run I2 e' l').
  Proof.
    induction 1 as [P|P P' o o' l l' Ho Hl IH]; intros e e' HE; cbn [eng_run].
    - constructor. split; [eauto|constructor].
    - eapply Rbind; [eapply step_rel; eauto|]. intros [e1 o1] [e1' o1'] [HE1 HO1]. cbn [fst snd] in *.
      eapply Rbind; [eapply IH; eauto|]. intros [e2 o2] [e2' o2'] [HE2 HO2]. cbn [fst snd] in *. constructor. split; [exact HE2|].
      cbn [snd]. now apply Forall2_app.
  Qed.
  Lemma new_rel env env' : Forall2 (Forall2 arel) env env' -> erel None (eng_new I1 env) (eng_new I2 env').
  Proof. intros HV. constructor; cbn; auto; try (constructor; fail); try apply H; try discriminate. Qed.
End Het.

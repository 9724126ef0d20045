(** * A family of engines that are given the same calls, with related samples

    [K] indexes the engines.  Signals going in are related by [irel], signals coming out by [srel] (per channel); convolvers take
    the one to the other; the levels of the fades keep [srel].  Then so does the engine. *)
From Verif.Model Require Import Base Arith Juce Float32 SmoothedValue Convolver ConvolutionEngine.
From Verif.Spec Require Import Transform Signal Engine Memory Twins.
From Verif.Proofs Require Import Lists Blocks SmoothProof Param EngineProof EngineInv.

Lemma bind_sig {X Y} (r : res X) (f : X -> res Y) y : bind r f = Ok y -> {x | r = Ok x /\ f x = Ok y}.
Proof. destruct r as [x| |]; cbn; intros H; try discriminate. now exists x. Qed.
Lemma ok_sig {X} (r : res X) : (exists x, r = Ok x) -> {x | r = Ok x}.
Proof. destruct r as [x| |]; intros H; [now exists x| |]; exfalso; destruct H; discriminate. Qed.
Lemma bindF {K X Y} (r : K -> res X) (f : K -> X -> res Y) y : (forall k, bind (r k) (f k) = Ok (y k)) ->
  exists x, (forall k, r k = Ok (x k)) /\ forall k, f k (x k) = Ok (y k).
Proof.
  intros H. exists (fun k => proj1_sig (bind_sig _ _ _ (H k))). split; intros k; destruct (bind_sig _ _ _ (H k)) as [x [H1 H2]]; auto.
Qed.
Lemma okF {K X} (r : K -> res X) : (forall k, exists x, r k = Ok x) -> exists x, forall k, r k = Ok (x k).
Proof. intros H. exists (fun k => proj1_sig (ok_sig _ (H k))). intros k. now destruct (ok_sig _ (H k)). Qed.
Lemma ok_inj {X} (x y : X) : Ok x = Ok y -> x = y. Proof. congruence. Qed.

Ltac same_fields := repeat (split; [reflexivity|]); reflexivity.

Section Family.
  Context {K : Type} (k0 : K) {A : arith} (I : conv_if A).
  Notation engine := (engine I).
  Notation held := (held I).
  Variables (w : nat) (irel srel : nat -> (K -> sample A) -> Prop).
  Variables (new : cv I -> Prop) (rel : (K -> cv I) -> Prop).
  Variables (mixes : sample A -> sample A -> Prop) (scales : sample A -> Prop) (lev : fade_strategy -> smooth A -> smooth A -> Prop).
  Definition blocks_rel (P : nat -> (K -> sample A) -> Prop) (m : nat) (b : K -> audio A) : Prop :=
    (forall k, block_of w m (b k)) /\ forall ch i, ch < w -> i < m -> P ch (fun k => at_ (b k) ch i).

  Record family_ok : Prop := {
    fo_new : forall c, new c -> rel (fun _ => c);
    fo_reset : forall c, rel c -> rel (fun k => cv_reset I (c k));
    fo_samples : forall c k, rel c -> cv_samples I (c k) = cv_samples I (c k0);
    fo_fade : forall c k, rel c -> cv_fade I (c k) = cv_fade I (c k0);
    fo_process : forall m c b, rel c -> blocks_rel irel m b ->
      exists c' o, (forall k, cv_process I (c k) (b k) = Ok (c' k, o k)) /\ rel c' /\ blocks_rel srel m o;
    fo_through : forall ch x, irel ch x -> srel ch x;
    fo_mix : forall ch x y g g', srel ch x -> srel ch y -> mixes g g' -> srel ch (fun k => sadd (smul (x k) g) (smul (y k) g'));
    fo_scale : forall ch x g, srel ch x -> scales g -> srel ch (fun k => smul (x k) g);
    lv_restart : forall st i o, lev st (sm_set false i) (sm_set true o);
    lv_begin : forall st st' n i o, lev st i o -> lev st' (sm_set_target true (sm_reset n i)) (sm_set_target false (sm_reset n o));
    lv_cross : forall i o, lev kCrossfade i o ->
      (forall j, mixes (gain o j) (gain i j)) /\ forall m, lev kCrossfade (sm_iter m i) (sm_iter m o);
    lv_inout : forall i o, lev kInOut i o ->
      (forall j, scales (gain o j) /\ scales (gain i j)) /\ forall m, lev kInOut (sm_iter m i) o /\ lev kInOut i (sm_iter m o)
  }.
  Hypothesis Hw : 0 < w.
  Hypothesis HF : family_ok.

  Inductive orelF : (K -> option held) -> Prop :=
  | oF_none o : (forall k, o k = None) -> orelF o
  | oF_some o h : (forall k, o k = Some (h k)) -> rel (fun k => h_cv I (h k)) -> orelF o.
  Lemma orelF_ext o o' : (forall k, o' k = o k) -> orelF o -> orelF o'.
  Proof. intros E H. destruct H as [x H|x h H HR]; [apply oF_none|apply (oF_some o' h); [|exact HR]]; intros k; rewrite E; apply H. Qed.
  Lemma orelF_inv o : orelF o -> (forall k, o k = None) \/ exists h, (forall k, o k = Some (h k)) /\ rel (fun k => h_cv I (h k)).
  Proof. intros H. destruct H as [o H|o h H HR]; [left; exact H|right; exists h; auto]. Qed.
  Lemma orelF_const (o : K -> option held) h : (forall k, o k = Some h) -> new (h_cv I h) -> orelF o.
  Proof. intros E H. apply (oF_some o (fun _ => h)); auto. now apply HF. Qed.

  Definition onew (o : option held) : Prop := forall h, o = Some h -> new (h_cv I h).
  Record fam (P : option nat) (e : K -> engine) : Prop := {
    f_conv : orelF (fun k => e_conv I (e k));
    f_fade : orelF (fun k => e_fade I (e k));
    f_pend : forall k, e_pending I (e k) = e_pending I (e k0);
    f_cmds : forall k, e_commands I (e k) = e_commands I (e k0);
    f_in : forall k, e_in I (e k) = e_in I (e k0);
    f_out : forall k, e_out I (e k) = e_out I (e k0);
    f_buf : forall M, P = Some M -> 0 < M /\ forall k, block_of w M (e_buffer I (e k));
    f_bounds : forall k, e_bounds I (e k) = e_bounds I (e k0);
    f_strat : forall k, e_strategy I (e k) = e_strategy I (e k0);
    f_busy : forall k, e_cmd_busy I (e k) = e_cmd_busy I (e k0);
    f_env : forall k, e_env I (e k) = e_env I (e k0);
    f_pnew : onew (e_pending I (e k0));
    f_cnew : Forall (fun h => new (h_cv I h)) (e_commands I (e k0));
    f_enew : Forall (delivers_ok I new) (e_env I (e k0));
    f_lev : lev (e_strategy I (e k0)) (e_in I (e k0)) (e_out I (e k0))
  }.

  Lemma acts_cmds l : forall e e', e_commands I e = e_commands I e' -> e_cmd_busy I e = e_cmd_busy I e' ->
    e_commands I (acts I l e) = e_commands I (acts I l e').
  Proof.
    unfold acts. induction l as [|a l IH]; intros e e' H1 H2; [exact H1|]. cbn [fold_left]. apply IH.
    - destruct a; cbn [act]; rewrite ?H1, ?H2; [destruct (_ <? _); ecbn; congruence| |ecbn; auto].
      destruct (e_notes I e), (e_notes I e'); ecbn; auto.
    - destruct a; cbn [act]; rewrite ?H1, ?H2; [destruct (_ <? _); ecbn; congruence| |ecbn; auto].
      destruct (e_notes I e), (e_notes I e'); ecbn; auto.
  Qed.
  Lemma acts_cnew l : delivers_ok I new l -> forall e, Forall (fun h => new (h_cv I h)) (e_commands I e) ->
    Forall (fun h => new (h_cv I h)) (e_commands I (acts I l e)).
  Proof.
    unfold acts. induction l as [|a l IH]; intros Hl e H; [exact H|]. cbn [fold_left]. apply IH.
    - intros h Hh. apply Hl. now right.
    - destruct a as [h| |]; cbn [act]; [destruct (_ <? _); ecbn; auto| |ecbn; auto].
      + apply Forall_app. split; auto. constructor; auto. apply Hl. now left.
      + destruct (e_notes I e); ecbn; auto.
  Qed.
  Lemma acts_env l : forall e, e_env I (acts I l e) = e_env I e.
  Proof.
    unfold acts. induction l as [|a l IH]; intros e; [reflexivity|]. cbn [fold_left]. rewrite IH.
    destruct a; cbn [act]; [destruct (_ <? _)|destruct (e_notes I e)|]; reflexivity.
  Qed.
  Lemma acts_fam P l e : delivers_ok I new l -> fam P e -> fam P (fun k => acts I l (e k)).
  Proof.
    intros Hl [].
    assert (S : forall k, e_conv I (acts I l (e k)) = e_conv I (e k) /\ e_fade I (acts I l (e k)) = e_fade I (e k) /\
      e_pending I (acts I l (e k)) = e_pending I (e k) /\ e_in I (acts I l (e k)) = e_in I (e k) /\ e_out I (acts I l (e k)) = e_out I (e k) /\
      e_buffer I (acts I l (e k)) = e_buffer I (e k) /\ e_bounds I (acts I l (e k)) = e_bounds I (e k) /\
      e_strategy I (acts I l (e k)) = e_strategy I (e k) /\ e_cmd_busy I (acts I l (e k)) = e_cmd_busy I (e k)) by (intros k; apply acts_slots).
    destruct (S k0) as (Z1 & Z2 & Z3 & Z4 & Z5 & Z6 & Z7 & Z8 & Z9).
    constructor; try (intros k; destruct (S k) as (S1 & S2 & S3 & S4 & S5 & S6 & S7 & S8 & S9); rewrite ?acts_env; congruence).
    - eapply orelF_ext; [|exact f_conv0]. intros k. apply S.
    - eapply orelF_ext; [|exact f_fade0]. intros k. apply S.
    - intros k. apply acts_cmds; auto.
    - intros M HP. destruct (f_buf0 M HP) as [H1 H2]. split; auto. intros k. destruct (S k) as (_ & _ & _ & _ & _ & -> & _). auto.
    - now rewrite Z3.
    - now apply acts_cnew.
    - now rewrite acts_env.
    - now rewrite Z8, Z4, Z5.
  Qed.
  Lemma interrupt_fam P e : fam P e -> fam P (fun k => interrupt I (e k)).
  Proof.
    intros H. assert (E : forall k, interrupt I (e k) = acts I (hd [] (e_env I (e k0))) (set_env I (tl (e_env I (e k0))) (e k))).
    { intros k. unfold interrupt. pose proof (f_env _ _ H k) as EE. destruct (e_env I (e k0)) as [|l t]; rewrite EE; [|reflexivity].
      cbn [hd tl acts fold_left]. unfold acts. cbn. destruct (e k); cbn in *. now rewrite EE. }
    assert (H1 : fam P (fun k => acts I (hd [] (e_env I (e k0))) (set_env I (tl (e_env I (e k0))) (e k)))).
    { apply acts_fam.
      - pose proof (f_enew _ _ H) as HE. destruct (e_env I (e k0)); [intros ? []|now inversion HE].
      - pose proof (f_enew _ _ H) as HE. destruct H. constructor; ecbn; auto. destruct (e_env I (e k0)); [constructor|now inversion HE]. }
    destruct H1. constructor; intros; rewrite ?E; auto.
    - eapply orelF_ext; [|exact f_conv0]. intros k. now rewrite E.
    - eapply orelF_ext; [|exact f_fade0]. intros k. now rewrite E.
    - destruct (f_buf0 M H0). split; auto. intros k. rewrite E. auto.
  Qed.
  Lemma notes_fam P e : fam P e -> forall n, fam P (fun k => set_notes I (fst (n k)) (snd (n k)) (e k)).
  Proof. intros [] n. constructor; ecbn; auto. Qed.
  Lemma same_fam P e e' : fam P e ->
    (forall k, e_conv I (e' k) = e_conv I (e k) /\ e_fade I (e' k) = e_fade I (e k) /\ e_pending I (e' k) = e_pending I (e k) /\
       e_in I (e' k) = e_in I (e k) /\ e_out I (e' k) = e_out I (e k) /\ e_buffer I (e' k) = e_buffer I (e k) /\
       e_bounds I (e' k) = e_bounds I (e k) /\ e_strategy I (e' k) = e_strategy I (e k) /\ e_cmd_busy I (e' k) = e_cmd_busy I (e k) /\
       e_commands I (e' k) = e_commands I (e k) /\ e_env I (e' k) = e_env I (e k)) -> fam P e'.
  Proof.
    intros [] E. destruct (E k0) as (Z1 & Z2 & Z3 & Z4 & Z5 & Z6 & Z7 & Z8 & Z9 & Z10 & Z11).
    constructor; try (intros k; destruct (E k) as (? & ? & ? & ? & ? & ? & ? & ? & ? & ? & ?); congruence).
    - eapply orelF_ext; [|exact f_conv0]. intros k. apply E.
    - eapply orelF_ext; [|exact f_fade0]. intros k. apply E.
    - intros M HP. destruct (f_buf0 M HP) as [H1 H2]. split; auto. intros k. destruct (E k) as (? & ? & ? & ? & ? & -> & _). auto.
    - now rewrite Z3.
    - now rewrite Z10.
    - now rewrite Z11.
    - now rewrite Z8, Z4, Z5.
  Qed.
  Lemma push_note_fam P n e : fam P e -> fam P (fun k => push_note I (n k) (e k)).
  Proof.
    intros H. apply interrupt_fam in H. eapply same_fam; [exact H|]. intros k. unfold push_note. cbv zeta.
    destruct (_ <? _); ecbn; same_fields.
  Qed.

  Lemma begin_fade_fam P e e' : fam P e -> (forall k, eng_begin_fade I (e k) = Ok (e' k)) -> fam P e'.
  Proof.
    intros H E.
    assert (EX : exists st n, forall k, e' k = set_smooth I (sm_set_target true (sm_reset n (e_in I (e k)))) (sm_set_target false (sm_reset n (e_out I (e k)))) (set_strategy I st (e k))).
    { destruct (orelF_inv _ (f_fade _ _ H)) as [Ho|(h & Ho & HR)]; cbv beta in Ho.
      - specialize (E k0). unfold eng_begin_fade in E. rewrite (Ho k0) in E. discriminate.
      - destruct (e_bounds I (e k0)) as [bd|] eqn:EB.
        2:{ specialize (E k0). unfold eng_begin_fade in E. rewrite (Ho k0), EB in E. discriminate. }
        destruct (fade_of bd (cv_samples I (h_cv I (h k0))) (cv_fade I (h_cv I (h k0)))) as [[st n]| |] eqn:EF.
        2,3: specialize (E k0); unfold eng_begin_fade in E; rewrite (Ho k0), EB, EF in E; discriminate.
        exists st, n. intros k. specialize (E k). unfold eng_begin_fade in E. rewrite (Ho k), (f_bounds _ _ H), EB in E.
        rewrite (fo_samples HF _ k HR), (fo_fade HF _ k HR), EF in E. cbn [bind] in E. apply ok_inj in E. rewrite <- E. reflexivity. }
    destruct EX as (st & n & EX). destruct H.
    constructor; intros; rewrite ?EX; ecbn; auto; try (rewrite ?f_in0, ?f_out0; reflexivity).
    - eapply orelF_ext; [|exact f_conv0]. intros k. now rewrite EX.
    - eapply orelF_ext; [|exact f_fade0]. intros k. now rewrite EX.
    - destruct (f_buf0 M H). split; auto. intros k. rewrite EX. ecbn. auto.
    - eapply (lv_begin HF). eauto.
  Qed.

  Lemma slots_fam P e c f p : fam P e -> orelF c -> orelF f -> onew p -> fam P (fun k => set_slots I (c k) (f k) p (e k)).
  Proof. intros [] H1 H2 H3. constructor; ecbn; auto. Qed.
  Lemma none_F : orelF (fun _ => None). Proof. now apply oF_none. Qed.
  Lemma ready_fam P e e' h : fam P e -> new (h_cv I h) -> (forall k, eng_ready I (e k) h = Ok (e' k)) -> fam P e'.
  Proof.
    intros H Hh E. unfold eng_ready in E. destruct (orelF_inv _ (f_conv _ _ H)) as [Ho|(c & Ho & HR)]; cbv beta in Ho.
    - apply (same_fam P (fun k => set_slots I (Some h) (e_fade I (e k)) (e_pending I (e k0)) (e k))).
      + apply (slots_fam P e (fun _ => Some h)); auto; try apply H. now apply (orelF_const _ h).
      + intros k. specialize (E k). rewrite (Ho k) in E. apply ok_inj in E. rewrite <- E. ecbn. rewrite (f_pend _ _ H k). same_fields.
    - set (e1 := fun k => match e_pending I (e k) with Some p => push_note I (Some p) (set_slots I (e_conv I (e k)) (e_fade I (e k)) None (e k)) | None => e k end).
      assert (H1 : fam P e1).
      { destruct (e_pending I (e k0)) as [p|] eqn:EP.
        - eapply same_fam; [apply (push_note_fam P (fun _ => Some p) (fun k => set_slots I (e_conv I (e k)) (e_fade I (e k)) None (e k)))|].
          + apply slots_fam; auto; try apply H. intros x X. discriminate.
          + intros k. unfold e1. rewrite (f_pend _ _ H k), EP. same_fields.
        - eapply same_fam; [exact H|]. intros k. assert (EQ : e1 k = e k) by (unfold e1; now rewrite (f_pend _ _ H k), EP). rewrite EQ. same_fields. }
      assert (E' : forall k, match e_fade I (e1 k) with
                   | Some _ => Ok (set_slots I (e_conv I (e1 k)) (e_fade I (e1 k)) (Some h) (e1 k))
                   | None => eng_begin_fade I (set_slots I (e_conv I (e1 k)) (Some h) (e_pending I (e1 k)) (e1 k)) end = Ok (e' k)).
      { intros k. specialize (E k). rewrite (Ho k) in E. unfold e1. rewrite (Ho k). exact E. }
      clearbody e1. clear E. destruct (orelF_inv _ (f_fade _ _ H1)) as [Hf|(g & Hf & HG)]; cbv beta in Hf.
      + apply (begin_fade_fam P (fun k => set_slots I (e_conv I (e1 k)) (Some h) (e_pending I (e1 k0)) (e1 k))).
        * apply (slots_fam P e1 _ (fun _ => Some h)); auto; try apply H1. now apply (orelF_const _ h).
        * intros k. specialize (E' k). rewrite (Hf k) in E'. now rewrite <- (f_pend _ _ H1 k).
      + apply (same_fam P (fun k => set_slots I (e_conv I (e1 k)) (e_fade I (e1 k)) (Some h) (e1 k))).
        * apply slots_fam; auto; try apply H1. intros x X. injection X as <-. exact Hh.
        * intros k. specialize (E' k). rewrite (Hf k) in E'. apply ok_inj in E'. rewrite <- E', (Hf k). same_fields.
  Qed.
  Lemma cmds_fam P e l n : fam P e -> Forall (fun h => new (h_cv I h)) l -> fam P (fun k => set_commands I l n (e k)).
  Proof. intros [] H. constructor; ecbn; auto. Qed.
  Lemma service_n_fam P : forall n e e', fam P e -> (forall k, eng_service_n I n (e k) = Ok (e' k)) -> fam P e'.
  Proof.
    induction n as [|n IH]; intros e e' H E; cbn [eng_service_n] in E.
    { eapply same_fam; [exact H|]. intros k. specialize (E k). apply ok_inj in E. rewrite E. same_fields. }
    apply interrupt_fam in H. set (e1 := fun k => interrupt I (e k)) in *. change (fun k => interrupt I (e k)) with e1 in H.
    assert (E' : forall k, match e_commands I (e1 k) with [] => Undef | h :: t => bind (eng_ready I (set_commands I t (S (e_cmd_busy I (e1 k))) (e1 k)) h) (eng_service_n I n) end = Ok (e' k)).
    { intros k. exact (E k). }
    clear E. clearbody e1. pose proof (f_cnew _ _ H) as HC. destruct (e_commands I (e1 k0)) as [|h t] eqn:EC.
    { specialize (E' k0). rewrite EC in E'. discriminate. }
    assert (E2 : forall k, bind (eng_ready I (set_commands I t (S (e_cmd_busy I (e1 k0))) (e1 k)) h) (eng_service_n I n) = Ok (e' k)).
    { intros k. specialize (E' k). now rewrite (f_cmds _ _ H k), EC, (f_busy _ _ H k) in E'. }
    apply (bindF _ (fun _ => eng_service_n I n)) in E2. destruct E2 as (e2 & E2 & E3). inversion HC; subst.
    eapply IH; [|exact E3]. eapply ready_fam; [|eassumption|exact E2]. now apply cmds_fam.
  Qed.
  Lemma service_fam P e e' : fam P e -> (forall k, eng_service I (e k) = Ok (e' k)) -> fam P e'.
  Proof.
    intros H E. unfold eng_service in E. apply (bindF (fun k => eng_service_n I (length (e_commands I (e k))) (e k)) (fun _ e => Ok (set_commands I (e_commands I (interrupt I e)) 0 (interrupt I e)))) in E.
    destruct E as (e1 & E1 & E2). assert (H1 : fam P e1).
    { apply (service_n_fam P (length (e_commands I (e k0))) e); auto. intros k. rewrite <- (f_cmds _ _ H k). apply E1. }
    apply interrupt_fam in H1. eapply same_fam; [apply (cmds_fam P _ (e_commands I (interrupt I (e1 k0))) 0 H1); apply H1|].
    intros k. specialize (E2 k). apply ok_inj in E2. rewrite <- E2. ecbn. rewrite (f_cmds _ _ H1 k). same_fields.
  Qed.

  Lemma procF m (o : K -> option held) b : orelF o -> blocks_rel irel m b ->
    exists o' x, (forall k, proc I (o k) (b k) = Ok (o' k, x k)) /\ orelF o' /\ blocks_rel srel m x.
  Proof.
    intros H Hb. destruct H as [o Ho|o h Ho HR].
    - exists (fun _ => None), b. split; [intros k; rewrite Ho; reflexivity|]. split; [apply none_F|]. destruct Hb as [B1 B2]. split; auto.
      intros ch i H1 H2. now apply HF, B2.
    - destruct (fo_process HF m _ b HR Hb) as (c' & x & E & HR' & Hx).
      exists (fun k => Some {| h_id := h_id I (h k); h_cv := c' k |}), x. split; [intros k; rewrite Ho; cbn [proc]; rewrite E; reflexivity|].
      split; auto. apply (oF_some _ (fun k => {| h_id := h_id I (h k); h_cv := c' k |})); [reflexivity|]. exact HR'.
  Qed.
  Lemma mk_rel (P : nat -> (K -> sample A) -> Prop) m (f : K -> nat -> nat -> sample A) :
    (forall ch x y, (forall k, x k = y k) -> P ch x -> P ch y) ->
    (forall ch i, ch < w -> i < m -> P ch (fun k => f k ch i)) -> blocks_rel P m (fun k => mk w m (f k)).
  Proof.
    intros HP H. split; [intros k; apply shaped_mk|]. intros ch i H1 H2. eapply HP; [|exact (H ch i H1 H2)].
    intros k. unfold at_. now rewrite mk_nth, tab_nth.
  Qed.
  Lemma smooth_fam P e i o st : fam P e -> lev st i o -> (forall k, e_strategy I (e k) = st) -> fam P (fun k => set_smooth I i o (e k)).
  Proof. intros [] H Hs. constructor; ecbn; auto. now rewrite Hs. Qed.
  Lemma reset_fade_fam P e : fam P e -> fam P (fun k => eng_reset_fade I (e k)).
  Proof.
    intros H. eapply same_fam; [apply (smooth_fam P e (sm_set false (e_in I (e k0))) (sm_set true (e_out I (e k0))) (e_strategy I (e k0)) H)|].
    - apply HF.
    - apply H.
    - intros k. unfold eng_reset_fade. ecbn. rewrite (f_in _ _ H k), (f_out _ _ H k). same_fields.
  Qed.
  Lemma finish_fam P e e' : fam P e -> (forall k, eng_finish I (e k) = Ok (e' k)) -> fam P e'.
  Proof.
    intros H E. unfold eng_finish in E. cbv zeta in E.
    assert (H1 : fam P (fun k => push_note I (e_conv I (e k)) (set_slots I None (e_fade I (e k)) (e_pending I (e k)) (e k)))).
    { apply push_note_fam. eapply same_fam; [apply (slots_fam P e (fun _ => None) (fun k => e_fade I (e k)) (e_pending I (e k0))); auto; try apply H; apply none_F|].
      intros k. ecbn. rewrite (f_pend _ _ H k). same_fields. }
    set (e1 := fun k => push_note I (e_conv I (e k)) (set_slots I None (e_fade I (e k)) (e_pending I (e k)) (e k))) in *.
    change (fam P e1) in H1.
    assert (H2 : fam P (fun k => eng_reset_fade I (set_slots I (e_fade I (e1 k)) None (e_pending I (e1 k)) (e1 k)))).
    { apply reset_fade_fam. eapply same_fam; [apply (slots_fam P e1 (fun k => e_fade I (e1 k)) (fun _ => None) (e_pending I (e1 k0))); auto; try apply H1; apply none_F|].
      intros k. ecbn. rewrite (f_pend _ _ H1 k). same_fields. }
    set (e2 := fun k => eng_reset_fade I (set_slots I (e_fade I (e1 k)) None (e_pending I (e1 k)) (e1 k))) in *. change (fam P e2) in H2.
    assert (E' : forall k, match e_pending I (e2 k) with Some p => eng_begin_fade I (set_slots I (e_conv I (e2 k)) (Some p) None (e2 k)) | None => Ok (e2 k) end = Ok (e' k)) by exact E.
    clearbody e2. clear E. pose proof (f_pnew _ _ H2) as HP. destruct (e_pending I (e2 k0)) as [p|] eqn:EP.
    - apply (begin_fade_fam P (fun k => set_slots I (e_conv I (e2 k)) (Some p) None (e2 k))).
      + apply (slots_fam P e2 _ (fun _ => Some p)); auto; try apply H2; [apply (orelF_const _ p); auto|intros x X; discriminate].
      + intros k. specialize (E' k). now rewrite (f_pend _ _ H2 k), EP in E'.
    - eapply same_fam; [exact H2|]. intros k. specialize (E' k). rewrite (f_pend _ _ H2 k), EP in E'. apply ok_inj in E'. rewrite E'. same_fields.
  Qed.
  Lemma buffer_fam P P' e b : fam P e -> (forall M, P' = Some M -> 0 < M /\ forall k, block_of w M (b k)) -> fam P' (fun k => set_buffer I (b k) (e k)).
  Proof. intros [] H. constructor; ecbn; auto. Qed.

  Hypothesis Hext : forall ch x y, (forall k, x k = y k) -> srel ch x -> srel ch y.
  Lemma process_fam M m e b e' out : fam (Some M) e -> m <= M -> blocks_rel irel m b ->
    (forall k, eng_process I (e k) (b k) = Ok (e' k, out k)) -> fam (Some M) e' /\ blocks_rel srel m out.
  Proof.
    intros H Hm Hb E. unfold eng_process in E.
    apply (bindF (fun k => eng_service I (e k)) (fun k e => match e_fade I e with
      | Some _ => ' (e, out) <- (match e_strategy I e with kCrossfade => eng_crossfade I e (b k) | kInOut => eng_in_out I e (b k) end) ;;
                  e <- (if sm_smoothing (e_in I e) then Ok e else eng_finish I e) ;; Ok (e, out)
      | None => ' (c, out) <- proc I (e_conv I e) (b k) ;; Ok (set_slots I c (e_fade I e) (e_pending I e) e, out) end) (fun k => (e' k, out k))) in E.
    destruct E as (e1 & E1 & E2). pose proof (service_fam _ _ _ H E1) as H1. clear e H E1. 
    destruct (procF m _ b (f_conv _ _ H1) Hb) as (c' & x & Ec & HC & Hx).
    destruct (procF m _ b (f_fade _ _ H1) Hb) as (f' & y & Ef & HFf & Hy).
    pose proof (f_pnew _ _ H1) as HPn.
    destruct (orelF_inv _ (f_fade _ _ H1)) as [Hf|(h & Hf & HR)]; cbv beta in Hf.
    - assert (E3 : forall k, e' k = set_slots I (c' k) None (e_pending I (e1 k)) (e1 k) /\ out k = x k).
      { intros k. specialize (E2 k). rewrite (Hf k), (Ec k) in E2. cbn [bind] in E2. apply ok_inj in E2. injection E2 as <- <-. auto. }
      split.
      + eapply same_fam; [apply (slots_fam (Some M) e1 c' (fun _ => None) (e_pending I (e1 k0))); auto; apply none_F|].
        intros k. destruct (E3 k) as [-> _]. ecbn. rewrite (f_pend _ _ H1 k). same_fields.
      + destruct Hx as [X1 X2]. split; [intros k; destruct (E3 k) as [_ ->]; auto|]. intros ch i A1 A2.
        eapply Hext; [|exact (X2 ch i A1 A2)]. intros k. now destruct (E3 k) as [_ ->].
    - assert (E3 : forall k, bind (match e_strategy I (e1 k0) with kCrossfade => eng_crossfade I (e1 k) (b k) | kInOut => eng_in_out I (e1 k) (b k) end)
                               (fun p => let '(e, out) := p in e <- (if sm_smoothing (e_in I e) then Ok e else eng_finish I e) ;; Ok (e, out)) = Ok (e' k, out k)).
      { intros k. specialize (E2 k). now rewrite (Hf k), (f_strat _ _ H1 k) in E2. }
      clear E2. apply (bindF _ (fun _ p => let '(e, out) := p in e <- (if sm_smoothing (e_in I e) then Ok e else eng_finish I e) ;; Ok (e, out))) in E3.
      destruct E3 as (p & E3 & E4).
      assert (HM : fam (Some M) (fun k => fst (p k)) /\ blocks_rel srel m (fun k => snd (p k))).
      { clear E4. pose proof (f_lev _ _ H1) as HL. destruct (f_buf _ _ H1 M eq_refl) as [M0 HB].
        destruct (e_strategy I (e1 k0)) eqn:Es.
        - destruct (lv_inout HF _ _ HL) as [L1 L2]. destruct (sm_smoothing (e_out I (e1 k0))) eqn:Eo.
          + assert (E5 : forall k, p k = (set_smooth I (e_in I (e1 k0)) (sm_iter m (e_out I (e1 k0))) (set_slots I (c' k) (e_fade I (e1 k)) (e_pending I (e1 k0)) (e1 k)),
                                         mk w m (fun c i => smul (at_ (x k) c i) (gain (e_out I (e1 k0)) i)))).
            { intros k. specialize (E3 k). rewrite (in_out_eq_out I w Hw m (e1 k) (b k) (c' k) (x k)) in E3; auto.
              - apply ok_inj in E3. rewrite <- E3, (f_in _ _ H1 k), (f_out _ _ H1 k), (f_pend _ _ H1 k). reflexivity.
              - apply Hb.
              - now rewrite (f_out _ _ H1 k).
              - apply Hx. }
            split.
            * eapply same_fam; [apply (smooth_fam (Some M) (fun k => set_slots I (c' k) (e_fade I (e1 k)) (e_pending I (e1 k0)) (e1 k)) (e_in I (e1 k0)) (sm_iter m (e_out I (e1 k0))) kInOut)|].
              -- apply slots_fam; auto. apply H1.
              -- apply L2.
              -- intros k. ecbn. now rewrite (f_strat _ _ H1 k).
              -- intros k. rewrite E5. same_fields.
            * destruct (mk_rel srel m (fun k c i => smul (at_ (x k) c i) (gain (e_out I (e1 k0)) i)) Hext) as [X1 X2].
              { intros ch i A1 A2. apply (fo_scale HF ch (fun k => at_ (x k) ch i)); [now apply Hx|apply L1]. }
              split; [intros k; rewrite E5; apply X1|]. intros ch i A1 A2. eapply Hext; [|exact (X2 ch i A1 A2)]. intros k. now rewrite E5.
          + assert (E5 : forall k, p k = (set_smooth I (sm_iter m (e_in I (e1 k0))) (e_out I (e1 k0)) (set_slots I (e_conv I (e1 k)) (f' k) (e_pending I (e1 k0)) (e1 k)),
                                         mk w m (fun c i => smul (at_ (y k) c i) (gain (e_in I (e1 k0)) i)))).
            { intros k. specialize (E3 k). rewrite (in_out_eq_in I w Hw m (e1 k) (b k) (f' k) (y k)) in E3; auto.
              - apply ok_inj in E3. rewrite <- E3, (f_in _ _ H1 k), (f_out _ _ H1 k), (f_pend _ _ H1 k). reflexivity.
              - apply Hb.
              - now rewrite (f_out _ _ H1 k).
              - apply Hy. }
            split.
            * eapply same_fam; [apply (smooth_fam (Some M) (fun k => set_slots I (e_conv I (e1 k)) (f' k) (e_pending I (e1 k0)) (e1 k)) (sm_iter m (e_in I (e1 k0))) (e_out I (e1 k0)) kInOut)|].
              -- apply slots_fam; auto. apply H1.
              -- apply L2.
              -- intros k. ecbn. now rewrite (f_strat _ _ H1 k).
              -- intros k. rewrite E5. same_fields.
            * destruct (mk_rel srel m (fun k c i => smul (at_ (y k) c i) (gain (e_in I (e1 k0)) i)) Hext) as [X1 X2].
              { intros ch i A1 A2. apply (fo_scale HF ch (fun k => at_ (y k) ch i)); [now apply Hy|apply L1]. }
              split; [intros k; rewrite E5; apply X1|]. intros ch i A1 A2. eapply Hext; [|exact (X2 ch i A1 A2)]. intros k. now rewrite E5.
        - destruct (lv_cross HF _ _ HL) as [L1 L2].
          assert (E5 : forall k, exists buf, block_of w M buf /\
             p k = (set_buffer I buf (set_smooth I (sm_iter m (e_in I (e1 k0))) (sm_iter m (e_out I (e1 k0))) (set_slots I (c' k) (f' k) (e_pending I (e1 k0)) (e1 k))),
                    mk w m (fun c i => sadd (smul (at_ (x k) c i) (gain (e_out I (e1 k0)) i)) (smul (at_ (y k) c i) (gain (e_in I (e1 k0)) i))))).
          { intros k. specialize (E3 k).
            destruct (crossfade_eq I w Hw M m (e1 k) (b k) (c' k) (x k) (f' k) (y k)) as (buf & Hbuf & EQ); auto; try apply Hb; try apply Hx; try apply Hy.
            rewrite EQ in E3. apply ok_inj in E3. exists buf. split; auto. now rewrite <- E3, (f_in _ _ H1 k), (f_out _ _ H1 k), (f_pend _ _ H1 k). }
          assert (E6 : forall k, block_of w M (e_buffer I (fst (p k)))) by (intros k; destruct (E5 k) as (buf & Hbuf & ->); exact Hbuf).
          split.
          + eapply same_fam; [apply (buffer_fam (Some M) (Some M) (fun k => set_smooth I (sm_iter m (e_in I (e1 k0))) (sm_iter m (e_out I (e1 k0)))
                                       (set_slots I (c' k) (f' k) (e_pending I (e1 k0)) (e1 k))) (fun k => e_buffer I (fst (p k))))|].
            * apply (smooth_fam (Some M) _ _ _ kCrossfade); [|apply L2|intros k; ecbn; now rewrite (f_strat _ _ H1 k)]. apply slots_fam; auto.
            * intros M' EM. injection EM as <-. auto.
            * intros k. destruct (E5 k) as (buf & _ & ->). same_fields.
          + destruct (mk_rel srel m (fun k c i => sadd (smul (at_ (x k) c i) (gain (e_out I (e1 k0)) i)) (smul (at_ (y k) c i) (gain (e_in I (e1 k0)) i))) Hext) as [X1 X2].
            { intros ch i A1 A2. apply (fo_mix HF ch (fun k => at_ (x k) ch i) (fun k => at_ (y k) ch i)); [now apply Hx|now apply Hy|apply L1]. }
            split; [intros k; destruct (E5 k) as (buf & _ & ->); apply X1|]. intros ch i A1 A2. eapply Hext; [|exact (X2 ch i A1 A2)].
            intros k. now destruct (E5 k) as (buf & _ & ->). }
      destruct HM as [HM1 HM2].
      assert (E5 : forall k, bind (if sm_smoothing (e_in I (fst (p k0))) then Ok (fst (p k)) else eng_finish I (fst (p k))) (fun e => Ok (e, snd (p k))) = Ok (e' k, out k)).
      { intros k. specialize (E4 k). pose proof (f_in _ _ HM1 k) as EI. cbv beta in EI. rewrite <- EI. destruct (p k) as [ek ok]. exact E4. }
      apply (bindF _ (fun k e => Ok (e, snd (p k)))) in E5. destruct E5 as (e2 & E5 & E6).
      assert (HE : forall k, e' k = e2 k /\ out k = snd (p k)) by (intros k; specialize (E6 k); apply ok_inj in E6; injection E6 as -> ->; auto).
      assert (H2 : fam (Some M) e2).
      { destruct (sm_smoothing _); [|eapply finish_fam; eauto]. eapply same_fam; [exact HM1|]. intros k. specialize (E5 k). apply ok_inj in E5. rewrite <- E5. same_fields. }
      split.
      + eapply same_fam; [exact H2|]. intros k. destruct (HE k) as [-> _]. same_fields.
      + destruct HM2 as [X1 X2]. split; [intros k; destruct (HE k) as [_ ->]; auto|]. intros ch i A1 A2. eapply Hext; [|exact (X2 ch i A1 A2)].
        intros k. now destruct (HE k) as [_ ->].
  Qed.

  Lemma reset_fam P e e' : fam P e -> (forall k, eng_reset I (e k) = Ok (e' k)) -> fam P e'.
  Proof.
    intros H E. unfold eng_reset in E.
    apply (bindF (fun k => eng_service I (eng_reset_fade I (e k))) (fun _ e =>
      let e := set_buffer I (audio_clear (e_buffer I e)) e in
      let e := match e_pending I e, e_fade I e with
             | Some p, f => add_log I (destroy I Caller (e_conv I e)) (set_slots I (Some p) f None e)
             | None, Some f => add_log I (destroy I Caller (e_conv I e)) (set_slots I (Some f) None None e)
             | None, None => e
             end in
      Ok (match e_conv I e with
        | Some c => set_slots I (Some {| h_id := h_id I c; h_cv := cv_reset I (h_cv I c) |}) (e_fade I e) (e_pending I e) e
        | None => e
        end))) in E.
    destruct E as (e1 & E1 & E2). apply (service_fam P) in E1; [|now apply reset_fade_fam]. clear H. cbv zeta in E2.
    assert (H2 : fam P (fun k => set_buffer I (audio_clear (e_buffer I (e1 k))) (e1 k))).
    { apply (buffer_fam P P e1); auto. intros M HP. destruct (f_buf _ _ E1 M HP) as [H1 H2]. split; auto. intros k. destruct (H2 k) as [G1 G2].
      unfold audio_clear. split; [now rewrite map_length|]. intros c Hc. apply in_map_iff in Hc as (x & <- & Hx). rewrite map_length. auto. }
    set (e2 := fun k => set_buffer I (audio_clear (e_buffer I (e1 k))) (e1 k)) in *. change (fam P e2) in H2.
    set (e3 := fun k => match e_pending I (e2 k), e_fade I (e2 k) with
             | Some p, f => add_log I (destroy I Caller (e_conv I (e2 k))) (set_slots I (Some p) f None (e2 k))
             | None, Some f => add_log I (destroy I Caller (e_conv I (e2 k))) (set_slots I (Some f) None None (e2 k))
             | None, None => e2 k
             end).
    assert (E3 : forall k, match e_conv I (e3 k) with
        | Some c => set_slots I (Some {| h_id := h_id I c; h_cv := cv_reset I (h_cv I c) |}) (e_fade I (e3 k)) (e_pending I (e3 k)) (e3 k)
        | None => e3 k end = e' k) by (intros k; apply ok_inj, (E2 k)).
    assert (H3 : fam P e3).
    { pose proof (f_pnew _ _ H2) as HP. destruct (e_pending I (e2 k0)) as [p|] eqn:EP.
      - eapply same_fam; [apply (slots_fam P e2 (fun _ => Some p) (fun k => e_fade I (e2 k)) None); [exact H2|apply (orelF_const _ p); auto|apply H2|intros x X; discriminate]|].
        intros k. unfold e3. rewrite (f_pend _ _ H2 k), EP. same_fields.
      - destruct (orelF_inv _ (f_fade _ _ H2)) as [Hf|(h & Hf & HR)]; cbv beta in Hf.
        + eapply same_fam; [exact H2|]. intros k. assert (EQ : e3 k = e2 k) by (unfold e3; now rewrite (f_pend _ _ H2 k), EP, Hf). rewrite EQ. same_fields.
        + eapply same_fam; [apply (slots_fam P e2 (fun k => Some (h k)) (fun _ => None) None); [exact H2|now apply (oF_some _ h)|apply none_F|intros x X; discriminate]|].
          intros k. unfold e3. rewrite (f_pend _ _ H2 k), EP, Hf. same_fields. }
    clearbody e3. destruct (orelF_inv _ (f_conv _ _ H3)) as [Hc|(c & Hc & HR)]; cbv beta in Hc.
    - eapply same_fam; [exact H3|]. intros k. specialize (E3 k). rewrite (Hc k) in E3. rewrite <- E3. same_fields.
    - eapply same_fam; [apply (slots_fam P e3 (fun k => Some {| h_id := h_id I (c k); h_cv := cv_reset I (h_cv I (c k)) |}) (fun k => e_fade I (e3 k)) (e_pending I (e3 k0))); auto; try apply H3|].
      + apply (oF_some _ (fun k => {| h_id := h_id I (c k); h_cv := cv_reset I (h_cv I (c k)) |})); [reflexivity|]. exact (fo_reset HF _ HR).
      + intros k. specialize (E3 k). rewrite (Hc k) in E3. rewrite <- E3. ecbn. rewrite (f_pend _ _ H3 k). same_fields.
  Qed.
  Lemma log_fam P e l : fam P e -> fam P (fun k => add_log I (l k) (e k)).
  Proof. intros H. eapply same_fam; [exact H|]. intros k. same_fields. Qed.
  Lemma clear_fam P e e' : fam P e -> (forall k, eng_clear I (e k) = Ok (e' k)) -> fam P e'.
  Proof.
    intros H E. unfold eng_clear in E.
    apply (bindF (fun k => eng_reset I (add_log I [ClearCalled] (e k))) (fun _ e => Ok (add_log I (destroy I Caller (e_conv I e) ++ destroy I Caller (e_pending I e)) (set_slots I None (e_fade I e) None e)))) in E.
    destruct E as (e1 & E1 & E2). apply (reset_fam P) in E1; [|now apply log_fam].
    eapply same_fam; [apply (slots_fam P e1 (fun _ => None) (fun k => e_fade I (e1 k)) None); [exact E1|apply none_F|apply E1|intros x X; discriminate]|].
    intros k. specialize (E2 k). apply ok_inj in E2. rewrite <- E2. same_fields.
  Qed.
  Lemma prepare_fam P e e' s : ps_channels s = w -> 0 < ps_max_block s -> fam P e -> (forall k, eng_prepare I (e k) s = Ok (e' k)) ->
    fam (Some (ps_max_block s)) e'.
  Proof.
    intros Hs HM H E. unfold eng_prepare in E. destruct (engine_bounds s) as [bd| |]; cbn [bind] in E; [|discriminate (E k0)|discriminate (E k0)].
    eapply reset_fam; [|exact E]. apply (buffer_fam P).
    - destruct H. constructor; ecbn; auto.
    - intros M EM. injection EM as <-. split; auto. intros k. rewrite Hs. unfold zeros. split; [apply repeat_length|].
      intros c Hc. apply repeat_spec in Hc. subst. apply repeat_length.
  Qed.
  Lemma new_fam env : lev kInOut sm_new sm_new -> Forall (delivers_ok I new) env -> fam None (fun _ => eng_new I env).
  Proof.
    intros HL HE. constructor; cbn; auto; try apply none_F; try discriminate.
  Qed.

  (** ** histories: the same calls, and blocks that are related *)
  Inductive calls : (K -> op I) -> Prop :=
  | c_process m b o : (forall k, o k = Process I (b k)) -> blocks_rel irel m b -> calls o
  | c_same x o : (forall b, x <> Process I b) -> (forall k, o k = x) -> calls o.
  Inductive histories : (K -> list (op I)) -> Prop :=
  | hs_nil l : (forall k, l k = []) -> histories l
  | hs_cons o t l : (forall k, l k = o k :: t k) -> calls o -> histories t -> histories l.
  Inductive outputs : (K -> list (audio A)) -> Prop :=
  | os_nil l : (forall k, l k = []) -> outputs l
  | os_cons m o t l : (forall k, l k = o k :: t k) -> blocks_rel srel m o -> outputs t -> outputs l.

  Lemma outputs_ext l l' : (forall k, l' k = l k) -> outputs l -> outputs l'.
  Proof.
    intros E H. destruct H as [l H|m o t l H Hb Ht]; [apply os_nil|apply (os_cons m o t); auto]; intros k; rewrite E; apply H.
  Qed.
  Lemma run_fam : forall l, histories l -> forall P e e' outs, fam P e -> legal I w new P (l k0) ->
    (forall k, eng_run I (e k) (l k) = Ok (e' k, outs k)) -> (exists P', fam P' e') /\ outputs outs.
  Proof.
    intros l HL. induction HL as [l Hl|o t l Hl Ho _ IH]; intros P e e' outs H HLg E.
    - assert (E' : forall k, e' k = e k /\ outs k = []).
      { intros k. specialize (E k). rewrite (Hl k) in E. cbn in E. apply ok_inj in E. injection E as -> ->. auto. }
      split; [|apply os_nil; intros k; apply E']. exists P. eapply same_fam; [exact H|]. intros k. destruct (E' k) as [-> _]. same_fields.
    - assert (E1 : forall k, bind (eng_step I (e k) (o k)) (fun p => let '(e1, x) := p in bind (eng_run I e1 (t k)) (fun q => let '(e2, xs) := q in Ok (e2, x ++ xs))) = Ok (e' k, outs k)).
      { intros k. specialize (E k). rewrite (Hl k) in E. exact E. }
      apply (bindF _ (fun k p => let '(e1, x) := p in bind (eng_run I e1 (t k)) (fun q => let '(e2, xs) := q in Ok (e2, x ++ xs)))) in E1.
      destruct E1 as (p & E1 & E2).
      assert (E3 : forall k, bind (eng_run I (fst (p k)) (t k)) (fun q => Ok (fst q, snd (p k) ++ snd q)) = Ok (e' k, outs k)).
      { intros k. specialize (E2 k). destruct (p k) as [e1 x]. cbn [fst snd]. destruct (eng_run I e1 (t k)) as [[e2 xs]| |]; exact E2. }
      apply (bindF _ (fun k q => Ok (fst q, snd (p k) ++ snd q))) in E3. destruct E3 as (q & E3 & E4).
      rewrite (Hl k0) in HLg.
      assert (HS : exists P1, fam P1 (fun k => fst (p k)) /\ legal I w new P1 (t k0) /\
                    ((forall k, snd (p k) = []) \/ exists m out, (forall k, snd (p k) = [out k]) /\ blocks_rel srel m out)).
      { destruct Ho as [m b o Ho Hb|x o Hx Ho].
        - rewrite (Ho k0) in HLg. cbn [legal] in HLg. destruct HLg as [(M & m' & -> & Hm & Hbm) HLg].
          assert (Em : m' = m).
          { destruct Hb as [Hb _]. specialize (Hb k0). destruct Hbm as [N1 N2], Hb as [N3 N4]. destruct (b k0) as [|c bb]; [cbn in *; lia|].
            rewrite <- (N2 c), <- (N4 c); auto; now left. }
          subst m'.
          assert (E5 : forall k, bind (eng_process I (e k) (b k)) (fun p => Ok (fst p, [snd p])) = Ok (p k)).
          { intros k. specialize (E1 k). rewrite (Ho k) in E1. cbn [eng_step] in E1. destruct (eng_process I (e k) (b k)) as [[? ?]| |]; exact E1. }
          apply (bindF _ (fun k p => Ok (fst p, [snd p]))) in E5. destruct E5 as (r & E5 & E6).
          destruct (process_fam M m e b (fun k => fst (r k)) (fun k => snd (r k)) H Hm Hb) as [G1 G2].
          { intros k. rewrite E5. now destruct (r k). }
          exists (Some M). split; [|split; auto].
          + eapply same_fam; [exact G1|]. intros k. specialize (E6 k). apply ok_inj in E6. rewrite <- E6. same_fields.
          + right. exists m, (fun k => snd (r k)). split; auto. intros k. specialize (E6 k). apply ok_inj in E6. now rewrite <- E6.
        - rewrite (Ho k0) in HLg. destruct x as [s|b| | |a]; cbn [legal] in HLg; destruct HLg as [G HLg].
          + assert (E5 : forall k, eng_prepare I (e k) s = Ok (fst (p k)) /\ snd (p k) = []).
            { intros k. specialize (E1 k). rewrite (Ho k) in E1. cbn [eng_step] in E1. destruct (eng_prepare I (e k) s); cbn [bind] in E1; try discriminate. apply ok_inj in E1. rewrite <- E1. auto. }
            exists (Some (ps_max_block s)). split; [|split; [auto|left; apply E5]]. destruct G as (G1 & G2 & _).
            apply (prepare_fam P e _ s); auto. apply E5.
          + now elim (Hx b).
          + assert (E5 : forall k, eng_reset I (e k) = Ok (fst (p k)) /\ snd (p k) = []).
            { intros k. specialize (E1 k). rewrite (Ho k) in E1. cbn [eng_step] in E1. destruct (eng_reset I (e k)); cbn [bind] in E1; try discriminate. apply ok_inj in E1. rewrite <- E1. auto. }
            exists P. split; [|split; [auto|left; apply E5]]. apply (reset_fam P e); auto. apply E5.
          + assert (E5 : forall k, eng_clear I (e k) = Ok (fst (p k)) /\ snd (p k) = []).
            { intros k. specialize (E1 k). rewrite (Ho k) in E1. cbn [eng_step] in E1. destruct (eng_clear I (e k)); cbn [bind] in E1; try discriminate. apply ok_inj in E1. rewrite <- E1. auto. }
            exists P. split; [|split; [auto|left; apply E5]]. apply (clear_fam P e); auto. apply E5.
          + assert (E5 : forall k, fst (p k) = acts I a (e k) /\ snd (p k) = []).
            { intros k. specialize (E1 k). rewrite (Ho k) in E1. cbn [eng_step] in E1. apply ok_inj in E1. rewrite <- E1. auto. }
            exists P. split; [|split; [auto|left; apply E5]]. eapply same_fam; [apply (acts_fam P a e G H)|]. intros k. destruct (E5 k) as [-> _]. same_fields. }
      destruct HS as (P1 & G1 & G2 & G3).
      destruct (IH P1 _ (fun k => fst (q k)) (fun k => snd (q k)) G1 G2) as [(P2 & G4) G5].
      { intros k. rewrite E3. now destruct (q k). }
      assert (E5 : forall k, e' k = fst (q k) /\ outs k = snd (p k) ++ snd (q k)).
      { intros k. specialize (E4 k). apply ok_inj in E4. injection E4 as <- <-. auto. }
      split.
      + exists P2. eapply same_fam; [exact G4|]. intros k. destruct (E5 k) as [-> _]. same_fields.
      + destruct G3 as [G3|(m & out & G3 & G6)].
        * assert (E6 : forall k, outs k = snd (q k)) by (intros k; destruct (E5 k) as [_ ->]; now rewrite G3).
          eapply outputs_ext; [exact E6|exact G5].
        * apply (os_cons m out (fun k => snd (q k))); auto. intros k. destruct (E5 k) as [_ ->]. now rewrite G3.
  Qed.
End Family.

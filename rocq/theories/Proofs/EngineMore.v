(** * Rest, the first convolver, restarts, the real convolvers *)
From Verif.Model Require Import Base Arith Juce Float32 SmoothedValue Partitioning Convolver ConvolutionEngine.
From Verif.Spec Require Import Transform Signal RealFFT Routing Engine.
From Verif.Proofs Require Import Lists Blocks Streams FFTProof FadeProof SmoothProof EngineProof EngineInv EngineFront EngineCalm EngineRun EngineFade.

Section More.
  Context {A : arith} (I : conv_if A).
  Notation engine := (engine I).
  Notation held := (held I).
  Notation front := (front I).
  Notation front_of := (front_of I).

  Ltac step H := match type of H with
    | bind ?a _ = Ok _ => let E := fresh "E" in let v := fresh "r" in destruct a as [v| |] eqn:E; cbn [bind] in H; try discriminate
    end.
  Ltac step2 H c o := match type of H with
    | bind ?a _ = Ok _ => let E := fresh "E" in destruct a as [[c o]| |] eqn:E; cbn [bind] in H; try discriminate
    end.

  (** ** between calls no command slot is held *)
  Lemma begin_fade_busy e e' : eng_begin_fade I e = Ok e' -> e_cmd_busy I e' = e_cmd_busy I e.
  Proof.
    unfold eng_begin_fade. destruct (e_fade I e); [|discriminate]. destruct (e_bounds I e); [|discriminate].
    destruct (fade_of _ _ _) as [[s n]| |]; cbn [bind]; intros H; try discriminate. now injection H as <-.
  Qed.
  Lemma service_busy e e' : eng_service I e = Ok e' -> e_cmd_busy I e' = 0.
  Proof. unfold eng_service. intros H. step H. now injection H as <-. Qed.
  Lemma finish_busy e e' : eng_finish I e = Ok e' -> e_cmd_busy I e' = e_cmd_busy I e.
  Proof.
    unfold eng_finish. destruct (push_note_slots I (e_conv I e) (set_slots I None (e_fade I e) (e_pending I e) e)) as (_ & _ & _ & _ & _ & _ & _ & _ & G).
    set (e1 := push_note I _ _) in *. clearbody e1. cbv zeta. ecbn. ecbn_in G. destruct (e_pending I e1); intros H.
    - apply begin_fade_busy in H. ecbn_in H. congruence.
    - now injection H as <-.
  Qed.
  Lemma process_busy e b e' o : eng_process I e b = Ok (e', o) -> e_cmd_busy I e' = 0.
  Proof.
    unfold eng_process. intros H. step H. apply service_busy in E. destruct (e_fade I r) eqn:Ef.
    - step2 H e2 o2. assert (HB : e_cmd_busy I e2 = 0).
      { destruct (e_strategy I r).
        - unfold eng_in_out in E0. destruct (sm_smoothing _); step2 E0 c9 o9; destruct (blk_multiply_by o9 _) as [o3 so];
            injection E0 as <- <-; auto.
        - unfold eng_crossfade in E0. do 3 step E0. step2 E0 c9 o9. step2 E0 f9 g9.
          destruct (blk_multiply_by o9 _) as [o3 so]. destruct (blk_multiply_by g9 _) as [fb2 si]. step E0. step E0.
          injection E0 as <- <-. auto. }
      destruct (sm_smoothing _); cbn [bind] in H; [injection H as <- <-; auto|].
      step H. injection H as <- <-. apply finish_busy in E1. congruence.
    - step2 H c9 o9. now injection H as <- <-.
  Qed.
  Lemma reset_busy e e' : eng_reset I e = Ok e' -> e_cmd_busy I e' = 0.
  Proof.
    unfold eng_reset. intros H. step H. apply service_busy in E. injection H as <-. ecbn.
    destruct (e_pending I r), (e_fade I r); ecbn; auto. destruct (e_conv I r); auto.
  Qed.
  Lemma step_busy o e e' x : e_cmd_busy I e = 0 -> eng_step I e o = Ok (e', x) -> e_cmd_busy I e' = 0.
  Proof.
    intros HB H. destruct o; cbn [eng_step] in H.
    - step H. injection H as <- <-. unfold eng_prepare in E. step E. now apply reset_busy in E.
    - step2 H e2 o2. injection H as <- <-. now apply process_busy in E.
    - step H. injection H as <- <-. now apply reset_busy in E.
    - step H. injection H as <- <-. unfold eng_clear in E. step E. apply reset_busy in E0. injection E as <-. auto.
    - injection H as <- <-. destruct (acts_slots I l e) as (_ & _ & _ & _ & _ & _ & _ & _ & G). congruence.
  Qed.
  Lemma run_busy : forall l e e' outs, e_cmd_busy I e = 0 -> eng_run I e l = Ok (e', outs) -> e_cmd_busy I e' = 0.
  Proof.
    induction l as [|o l IH]; intros e e' outs HB H; cbn [eng_run] in H.
    - now injection H as <- <-.
    - step2 H e1 x1. step2 H e2 x2. injection H as <- <-. eapply IH; [|exact E0]. eapply step_busy; eauto.
  Qed.

  Variable w : nat.
  Variable ok : cv I -> Prop.
  Hypothesis Hw : 0 < w.
  Hypothesis HI : accepting I w ok.
  Notation inv := (inv I w ok).
  Notation good := (good I w ok).
  Notation calm := (calm I).
  Notation tracked := (tracked I w ok).

  (** ** when no fade runs, the levels are at rest *)
  Definition frest (F : front) : Prop := f_fade I F = None -> sm_target (f_in I F) = false /\ sm_target (f_out I F) = true.
  Lemma take_rest bd F h : frest F -> frest (take I bd F h).
  Proof.
    intros H. unfold take. destruct (f_conv I F); [destruct (f_fade I F) eqn:Ef|]; intros X; cbn in *; try congruence. now apply H.
  Qed.
  Lemma takes_rest bd l : forall F, frest F -> frest (takes I bd l F).
  Proof. unfold takes. induction l as [|h l IH]; intros F H; auto. cbn [fold_left]. apply IH. now apply take_rest. Qed.
  Lemma fin_rest bd F : frest (fin I bd F).
  Proof. unfold fin. destruct (f_pend I F); intros X; cbn in *; try congruence. auto. Qed.
  Lemma check_rest bd F : f_fade I F <> None -> frest (check I bd F).
  Proof. intros H. unfold check. destruct (sm_smoothing _); [intros X; contradiction|apply fin_rest]. Qed.
  Lemma one_block_rest bd m b F F' o : one_block I w bd m b F F' o -> frest F -> frest F'.
  Proof.
    intros OB H. destruct OB.
    - intros _. cbn. now apply H.
    - apply check_rest. cbn. discriminate.
    - apply check_rest. cbn. discriminate.
    - apply check_rest. cbn. discriminate.
  Qed.
  (** [takes] with at most one convolver in line, or none waiting, starts no fade *)
  Lemma settle_rest bd e : calm e -> e_commands I e = [] \/ length (line e) <= 1 ->
    frest (settle I (takes I bd (e_commands I e) (rest I (front_of e)))).
  Proof.
    intros [[C1 C2] _] H.
    assert (HT : sm_target (f_in I (takes I bd (e_commands I e) (rest I (front_of e)))) = false /\
                 sm_target (f_out I (takes I bd (e_commands I e) (rest I (front_of e)))) = true).
    { destruct (e_commands I e) as [|h l] eqn:Ec; [split; reflexivity|].
      destruct H as [H|H]; [discriminate|]. rewrite line_front, app_length, map_length, Ec in H. unfold fids in H.
      rewrite !app_length in H. cbn [length front_of f_conv] in H. destruct l; [|cbn in H; lia].
      destruct (e_conv I e) as [c|] eqn:Eco; [cbn in H; lia|].
      cbn [takes fold_left]. unfold take. cbn [rest front_of f_conv]. rewrite Eco. split; reflexivity. }
    intros _. set (F := takes _ _ _ _) in *. clearbody F. unfold settle.
    destruct (f_pend I F); [|destruct (f_fade I F)]; cbn [f_in f_out]; exact HT.
  Qed.

  (** In this history, whenever prepare, reset or Clear is called, no convolver is waiting in the queue, or
      at most one is in line. *)
  Lemma rest_step p e o e' x : good p e -> (p <> None -> frest (front_of e)) -> legal I w ok (option_map ps_max_block p) [o] ->
    (restarts o -> e_commands I e = [] \/ length (line e) <= 1) -> eng_step I e o = Ok (e', x) ->
    last_spec p [o] <> None -> frest (front_of e').
  Proof.
    intros (HT & HC & HF) HR HL HU H HP.
    destruct o as [s|b| | |l]; cbn [eng_step last_spec legal] in *.
    - destruct (prepare_front I w ok Hw HI p e s) as (b & e1 & news & Eb & E & H1 & F1 & N1 & X1); try tauto.
      rewrite E in H. cbn [bind] in H. injection H as <- <-. rewrite F1. apply settle_rest; auto. now apply HU.
    - destruct HL as [(M & m & EM & Hm & Hb) _]. destruct p as [s|]; [|discriminate]. cbn in EM. injection EM as <-.
      destruct HT as ((Hch & HM & Hr) & bd & Ebd & He).
      destruct (process_front I w ok Hw HI _ bd e m b He HM Hm Hb) as (e1 & o & news & E & H1 & Ho & OB & N1 & X1).
      rewrite E in H. cbn [bind] in H. injection H as <- <-.
      eapply one_block_rest; [exact OB|]. apply takes_rest. apply HR. discriminate.
    - destruct p as [s|]; [|now destruct HL]. destruct HT as (HS & bd & Ebd & He).
      destruct (reset_front I w ok Hw HI _ bd e He) as (e1 & news & E & H1 & F1 & N1 & X1).
      rewrite E in H. cbn [bind] in H. injection H as <- <-. rewrite F1. apply settle_rest; auto. now apply HU.
    - destruct p as [s|]; [|now destruct HL]. destruct HT as (HS & bd & Ebd & He).
      destruct (clear_front I w ok Hw HI _ bd e He) as (e1 & news & E & H1 & F1 & N1 & _).
      rewrite E in H. cbn [bind] in H. injection H as <- <-. cbv zeta in F1. rewrite F1.
      pose proof (settle_rest bd e HC (HU Logic.I)) as S. intros X. cbn [f_fade f_in f_out] in *. now apply S.
    - injection H as <- <-. destruct (acts_slots I l e) as (G1 & G2 & G3 & G4 & G5 & G6 & G7 & G8 & G9).
      assert (EF : front_of (acts I l e) = front_of e) by (unfold front_of; congruence). rewrite EF. now apply HR.
  Qed.
  Lemma rest_run : forall l p e e' outs, good p e -> (p <> None -> frest (front_of e)) -> legal I w ok (option_map ps_max_block p) l ->
    unhurried e l ->
    (forall l1 o l2 e1 outs, l = l1 ++ o :: l2 -> restarts o -> eng_run I e l1 = Ok (e1, outs) -> e_commands I e1 = [] \/ length (line e1) <= 1) ->
    eng_run I e l = Ok (e', outs) -> last_spec p l <> None -> frest (front_of e').
  Proof.
    induction l as [|o l IH]; intros p e e' outs HG HR HL HU HQ H HP; cbn [eng_run] in H.
    - injection H as <- <-. now apply HR.
    - step2 H e1 x1. step2 H e2 x2. injection H as <- <-. apply legal_cons in HL. destruct HL as [L1 L2].
      rewrite last_spec_cons in HP. eapply IH; [| | | | |exact E0|exact HP].
      + eapply good_step; eauto. intros R. apply (HU [] o l e []); auto.
      + intros HP'. eapply rest_step; eauto. intros R. apply (HQ [] o l e []); auto.
      + now rewrite <- last_spec_prepared.
      + intros l1 o' l2 e3 outs3 El R E3. eapply (HU (o :: l1) o' l2 e3); eauto; [now rewrite El|].
        cbn [eng_run]. rewrite E. cbn [bind]. rewrite E3. reflexivity.
      + intros l1 o' l2 e3 outs3 El R E3. eapply (HQ (o :: l1) o' l2 e3); eauto; [now rewrite El|].
        cbn [eng_run]. rewrite E. cbn [bind]. rewrite E3. reflexivity.
  Qed.

  (** ** the first convolver *)
  Lemma first_run M bd bs e h : 0 < M -> fits w M bs -> inv M bd e -> no_loads e ->
    e_conv I e = None -> e_fade I e = None -> e_pending I e = None -> e_commands I e = [h] -> bs <> [] ->
    exists e' outs c', eng_run I e (map (Process I) bs) = Ok (e', outs) /\ inv M bd e' /\ no_loads e' /\ alone I e' /\
      e_in I e' = e_in I e /\ e_out I e' = e_out I e /\
      feed (cv_process I) (h_cv I h) bs = Ok (c', outs) /\ e_conv I e' = Some (renew I h c').
  Proof.
    intros HM Hbs He HN A0 A1 A2 A3 Hne. destruct bs as [|b bs]; [easy|].
    destruct (Hbs b (or_introl eq_refl)) as (m & Hm & Hb).
    destruct (process_front I w ok Hw HI _ bd e m b He HM Hm Hb) as (e1 & o & news & E & H1 & Ho & OB & N1 & X1).
    destruct X1 as [_ N]. destruct (N HN) as [-> HN1].
    assert (ET : takes I bd (e_commands I e) (front_of e) = with_slots I (Some h) None (front_of e)).
    { rewrite A3. cbn [takes fold_left]. unfold take. cbn [front_of f_conv]. rewrite A0. unfold with_slots. cbn [f_fade f_pend f_in f_out f_strat]. cbn [front_of f_fade f_pend f_in f_out f_strat f_conv]. rewrite ?A1. reflexivity. }
    rewrite ET in OB. apply ob_none in OB; [|reflexivity]. destruct OB as (c' & Ec & EQ1). cbn [with_slots f_conv] in Ec.
    apply proc_some in Ec. destruct Ec as (c1 & Ec & ->). unfold front_of, with_slots in EQ1. cbn [f_pend f_in f_out f_strat] in EQ1. injection EQ1 as Q1 Q2 Q3 Q4 Q5 Q6.
    destruct (alone_run I w ok Hw HI M bd HM bs e1) as (e2 & outs & E2 & H2 & HN2 & AL2 & I2 & O2 & P2); auto.
    { intros b' Hb'. apply Hbs. now right. }
    { split; [congruence|]. split; congruence. }
    rewrite Q1 in P2. destruct P2 as (c2 & P2 & P3). exists e2, (o :: outs), c2. cbn [map eng_run eng_step]. rewrite E. cbn [bind]. rewrite E2. cbn [bind].
    split; [reflexivity|]. split; auto. split; auto. split; auto. split; [congruence|]. split; [congruence|].
    cbn [feed renew h_cv] in P2 |- *. rewrite Ec. cbn [bind]. rewrite P2. split; [reflexivity|]. exact P3.
  Qed.

  (** ** the newest convolver in line *)
  Definition last_of (l : list held) : option held := match rev l with [] => None | h :: _ => Some h end.
  Lemma last_of_snoc l h : last_of (l ++ [h]) = Some h.
  Proof. unfold last_of. now rewrite rev_app_distr. Qed.
  Lemma last_of_app a b : last_of (a ++ b) = match last_of b with Some h => Some h | None => last_of a end.
  Proof. unfold last_of. rewrite rev_app_distr. destruct (rev b); reflexivity. Qed.
  Definition oh (o : option held) : list held := match o with Some h => [h] | None => [] end.
  Definition fline (F : front) : list held := oh (f_conv I F) ++ oh (f_fade I F) ++ oh (f_pend I F).
  Lemma take_last bd F h : fcalm I F -> last_of (fline (take I bd F h)) = Some h.
  Proof.
    intros [H1 H2]. destruct F as [c f p si so st]. unfold take, start, fline in *. cbn [f_conv f_fade f_pend] in *.
    destruct c as [c|]; [destruct f as [f|]|]; cbn [f_conv f_fade f_pend oh app].
    - reflexivity.
    - reflexivity.
    - rewrite (H1 eq_refl), (H2 (H1 eq_refl)). reflexivity.
  Qed.
  Lemma takes_last bd l : forall F, fcalm I F -> last_of (fline (takes I bd l F)) = last_of (fline F ++ l).
  Proof.
    unfold takes. induction l as [|h l IH]; intros F H; cbn [fold_left].
    - now rewrite app_nil_r.
    - rewrite IH by now apply take_calm. rewrite !last_of_app, take_last by auto.
      change (h :: l) with ([h] ++ l). rewrite last_of_app. destruct (last_of l); reflexivity.
  Qed.
  Lemma settle_last F : fcalm I F -> length (fids I F) <= 2 -> f_conv I (settle I F) = reset_conv I (last_of (fline F)).
  Proof.
    intros [H1 H2] HL. destruct F as [c f p si so st]. unfold settle, fline, fids in *. cbn [f_conv f_fade f_pend] in *.
    destruct p as [p|]; [destruct f as [f|]; [destruct c as [c|]; [cbn in HL; lia|now specialize (H1 eq_refl)]|now specialize (H2 eq_refl)]|].
    destruct f as [f|]; cbn [f_conv oh app].
    - destruct c; reflexivity.
    - destruct c; reflexivity.
  Qed.
  Lemma in_line_front (e : engine) : in_line e = fline (front_of e) ++ e_commands I e.
  Proof. unfold in_line, fline. cbn [front_of f_conv f_fade f_pend]. now rewrite <- !app_assoc. Qed.
  Lemma settled_conv bd (e : engine) : calm e -> length (line e) <= 2 ->
    f_conv I (settle I (takes I bd (e_commands I e) (rest I (front_of e)))) = reset_conv I (last_of (in_line e)).
  Proof.
    intros [C1 C2] HL. rewrite line_front, app_length, map_length in HL.
    destruct (takes_calm I bd (e_commands I e) (rest I (front_of e))) as (D1 & D2 & D3). { exact C1. }
    change (fids I (rest I (front_of e))) with (fids I (front_of e)) in D3.
    rewrite settle_last; auto; [|lia]. rewrite takes_last by exact C1. now rewrite in_line_front.
  Qed.
End More.

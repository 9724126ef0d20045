(** * What is heard during a fade *)
From Coq Require Import Ring.
From Verif.Model Require Import Base Arith Juce Float32 SmoothedValue Convolver ConvolutionEngine.
From Verif.Spec Require Import Transform Signal Engine.
From Verif.Proofs Require Import Lists Blocks Streams FFTProof FadeProof SmoothProof EngineProof EngineInv EngineFront EngineCalm EngineRun.

Section Gains.
  Context {A : arith} (L : arith_laws A) (HInv : inv_law A).
  Let Sring := law_ring A L.
  Add Ring sring_fade : Sring.

  Lemma gain_eq : forall i (v : smooth A), gain v i =
    if S i <? sm_count v then sadd (sm_current v) (smul (sofnat (S i)) (sm_step v)) else level (sm_target v).
  Proof.
    induction i as [|i IH]; intros v.
    - rewrite gain_0. unfold sm_next. destruct (sm_count v) as [|[|c]]; cbn [snd Nat.ltb Nat.leb]; try reflexivity.
      cbn [sofnat]. ring.
    - rewrite gain_S, IH, sm_next_count, sm_next_target.
      destruct (Nat.ltb_spec (S i) (sm_count v - 1)), (Nat.ltb_spec (S (S i)) (sm_count v)); try lia; [|reflexivity].
      unfold sm_next. destruct (sm_count v) as [|[|c]]; try lia. cbn [fst sm_current sm_step].
      change (sofnat (S (S i))) with (sadd (s1 (a := A)) (sofnat (S i))). ring.
  Qed.
  Lemma sofnat_sub a b : b <= a -> sofnat (A := A) (a - b) = ssub (sofnat a) (sofnat b).
  Proof.
    revert b. induction a as [|a IH]; intros b H.
    - replace b with 0 by lia. cbn. ring.
    - destruct b as [|b]; [cbn [Nat.sub]; change (sofnat (A := A) 0) with (s0 (a := A)); ring|]. cbn [Nat.sub]. rewrite IH by lia. cbn [sofnat]. ring.
  Qed.
  Lemma rise_gain (v : smooth A) n : sm_target v = false -> (0 < n)%Z ->
    forall i, gain (sm_set_target true (sm_reset n v)) i = rise (Z.to_nat n) i.
  Proof.
    intros HT Hn i. rewrite gain_eq. unfold sm_set_target. cbn [sm_reset sm_target sm_steps]. rewrite HT. cbn [Bool.eqb].
    destruct (Z.leb_spec n 0); [lia|]. cbn [sm_count sm_current sm_step sm_target sm_reset]. rewrite ?HT. cbn [level].
    unfold rise. destruct (Nat.ltb_spec (S i) (Z.to_nat n)).
    - rewrite Nat.min_l by lia. ring.
    - rewrite Nat.min_r by lia. rewrite HInv by lia. reflexivity.
  Qed.
  Lemma fall_gain (v : smooth A) n : sm_target v = true -> (0 < n)%Z ->
    forall i, gain (sm_set_target false (sm_reset n v)) i = fall (Z.to_nat n) i.
  Proof.
    intros HT Hn i. rewrite gain_eq. unfold sm_set_target. cbn [sm_reset sm_target sm_steps]. rewrite HT. cbn [Bool.eqb].
    destruct (Z.leb_spec n 0); [lia|]. cbn [sm_count sm_current sm_step sm_target sm_reset]. rewrite ?HT. cbn [level].
    unfold fall. destruct (Nat.ltb_spec (S i) (Z.to_nat n)).
    - rewrite sofnat_sub by lia. pose proof (HInv (Z.to_nat n) ltac:(lia)) as E. rewrite <- E at 1. ring [E].
    - replace (Z.to_nat n - S i) with 0 by lia. cbn [sofnat]. ring.
  Qed.
  Lemma rise_done N t : 0 < N -> N <= S t -> rise N t = (s1 (a := A)).
  Proof. intros H0 H. unfold rise. rewrite Nat.min_r by lia. now apply HInv. Qed.
  Lemma fall_done N t : N <= S t -> fall N t = (s0 (a := A)).
  Proof. intros H. unfold fall. replace (N - S t) with 0 by lia. cbn [sofnat]. ring. Qed.

  Lemma scaled_one (x : list (sample A)) g : (forall t, t < length x -> g t = s1) -> scaled g x = x.
  Proof.
    intros H. unfold scaled. etransitivity; [|symmetry; apply (tab_of_list x s0)]. apply tab_ext. intros i Hi. rewrite H by auto. ring.
  Qed.
  Lemma blend_new (x y : list (sample A)) g g' : (forall t, t < length y -> g t = s0) -> (forall t, t < length y -> g' t = s1) ->
    blend g x g' y = y.
  Proof.
    intros H1 H2. unfold blend. etransitivity; [|symmetry; apply (tab_of_list y s0)]. apply tab_ext. intros i Hi. rewrite H1, H2 by auto. ring.
  Qed.
End Gains.

Section Sig.
  Context {A : arith}.
  Lemma scaled_ext (g h : nat -> sample A) x : (forall t, g t = h t) -> scaled g x = scaled h x.
  Proof. intros H. apply tab_ext. intros i Hi. now rewrite H. Qed.
  Lemma blend_ext (g h g' h' : nat -> sample A) x y : (forall t, g t = h t) -> (forall t, g' t = h' t) -> blend g x g' y = blend h x h' y.
  Proof. intros H H'. apply tab_ext. intros i Hi. now rewrite H, H'. Qed.
  Lemma scaled_app (g : nat -> sample A) x y : scaled g (x ++ y) = scaled g x ++ scaled (fun t => g (length x + t)) y.
  Proof.
    unfold scaled. rewrite app_length, tab_app. f_equal; apply tab_ext; intros i Hi.
    - now rewrite app_nth1.
    - rewrite app_nth2 by lia. now replace (length x + i - length x) with i by lia.
  Qed.
  Lemma blend_app (g g' : nat -> sample A) x1 x2 y1 y2 : length x1 = length y1 ->
    blend g (x1 ++ x2) g' (y1 ++ y2) = blend g x1 g' y1 ++ blend (fun t => g (length y1 + t)) x2 (fun t => g' (length y1 + t)) y2.
  Proof.
    intros E. unfold blend. rewrite app_length, tab_app. f_equal; apply tab_ext; intros i Hi.
    - rewrite !app_nth1 by lia. reflexivity.
    - rewrite !app_nth2 by lia. rewrite E. now replace (length y1 + i - length y1) with i by lia.
  Qed.
  Lemma scaled_length (g : nat -> sample A) x : length (scaled g x) = length x.
  Proof. apply tab_length. Qed.
End Sig.

Section Fade.
  Context {A : arith} (I : conv_if A).
  Notation engine := (engine I).
  Notation held := (held I).
  Notation front := (front I).
  Notation front_of := (front_of I).
  Variable w : nat.
  Variable ok : cv I -> Prop.
  Hypothesis Hw : 0 < w.
  Hypothesis HI : accepting I w ok.
  Notation inv := (inv I w ok).

  Definition renew (h : held) (c : cv I) : held := {| h_id := h_id I h; h_cv := c |}.

  Lemma ob_some bd m b F F' o f : one_block I w bd m b F F' o -> f_fade I F = Some f -> f_strat I F = kCrossfade ->
    exists c' oa f' ob, proc I (f_conv I F) b = Ok (c', oa) /\ block_of w m oa /\ proc I (Some f) b = Ok (Some f', ob) /\ block_of w m ob /\
      F' = check I bd (with_smooth I (sm_iter m (f_in I F)) (sm_iter m (f_out I F)) (with_slots I c' (Some f') F)) /\
      o = mk w m (fun c i => sadd (smul (at_ oa c i) (gain (f_out I F) i)) (smul (at_ ob c i) (gain (f_in I F) i))).
  Proof. intros OB HF HS. destruct OB; try congruence. replace f0 with f in * by congruence. eauto 12. Qed.
  Lemma ob_inout_out bd m b F F' o f : one_block I w bd m b F F' o -> f_fade I F = Some f -> f_strat I F = kInOut -> 0 < sm_count (f_out I F) ->
    exists c' oa, proc I (f_conv I F) b = Ok (c', oa) /\ block_of w m oa /\
      F' = check I bd (with_smooth I (f_in I F) (sm_iter m (f_out I F)) (with_slots I c' (Some f) F)) /\
      o = mk w m (fun c i => smul (at_ oa c i) (gain (f_out I F) i)).
  Proof. intros OB HF HS HC. destruct OB; try congruence; [|lia]. replace f0 with f in * by congruence. eauto 12. Qed.
  Lemma ob_inout_in bd m b F F' o f : one_block I w bd m b F F' o -> f_fade I F = Some f -> f_strat I F = kInOut -> sm_count (f_out I F) = 0 ->
    exists f' ob, proc I (Some f) b = Ok (Some f', ob) /\ block_of w m ob /\
      F' = check I bd (with_smooth I (sm_iter m (f_in I F)) (f_out I F) (with_slots I (f_conv I F) (Some f') F)) /\
      o = mk w m (fun c i => smul (at_ ob c i) (gain (f_in I F) i)).
  Proof. intros OB HF HS HC. destruct OB; try congruence; [lia|]. replace f0 with f in * by congruence. eauto 12. Qed.
  Lemma proc_some h b h' o : proc I (Some h) b = Ok (h', o) -> exists c', cv_process I (h_cv I h) b = Ok (c', o) /\ h' = Some (renew h c').
  Proof.
    cbn [proc]. destruct (cv_process _ _ _) as [[c9 o9]| |]; cbn [bind]; intros H; try discriminate. injection H as <- <-. eauto.
  Qed.

  (** while a fade runs, new convolvers only replace the pending one *)
  Definition with_pend (p : option held) (F : front) : front :=
    {| f_conv := f_conv I F; f_fade := f_fade I F; f_pend := p; f_in := f_in I F; f_out := f_out I F; f_strat := f_strat I F |}.
  Lemma takes_fading bd l : forall F, f_conv I F <> None -> f_fade I F <> None ->
    exists p, takes I bd l F = with_pend p F /\ (l = [] -> p = f_pend I F).
  Proof.
    unfold takes. induction l as [|h l IH]; intros F H1 H2; cbn [fold_left].
    - exists (f_pend I F). split; auto. now destruct F.
    - unfold take at 2. destruct (f_conv I F) as [a|] eqn:Ec; [|easy]. destruct (f_fade I F) as [f|] eqn:Ef; [|easy].
      match goal with |- context [fold_left _ l ?G] => destruct (IH G) as (p & E & _) end; cbn; try discriminate.
      exists p. split; [|discriminate]. rewrite E. unfold with_pend. cbn. now rewrite Ec, Ef.
  Qed.

  (** [a] fading out, [f] fading in, [k] samples into a fade that started with [vin] and [vout] *)
  Record fading (s : fade_strategy) (bd : bounds) (a f : held) (p : option held) (vi vo : smooth A) (e : engine) : Prop := {
    fd_conv : f_conv I (takes I bd (e_commands I e) (front_of e)) = Some a;
    fd_fade : f_fade I (takes I bd (e_commands I e) (front_of e)) = Some f;
    fd_strat : f_strat I (takes I bd (e_commands I e) (front_of e)) = s;
    fd_in : f_in I (takes I bd (e_commands I e) (front_of e)) = vi;
    fd_out : f_out I (takes I bd (e_commands I e) (front_of e)) = vo;
    fd_pend : f_pend I (takes I bd (e_commands I e) (front_of e)) = p
  }.
  (** the fade to [f] is over *)
  Definition faded (bd : bounds) (f : held) (p : option held) (e : engine) : Prop :=
    e_conv I e = Some f /\ (p = None -> e_fade I e = None /\ e_pending I e = None /\ sm_target (e_in I e) = false /\ sm_target (e_out I e) = true).

  Lemma fading_next s bd a f p vi vo e F : front_of e = F -> f_conv I F = Some a -> f_fade I F = Some f -> f_strat I F = s ->
    f_in I F = vi -> f_out I F = vo -> f_pend I F = p -> exists p', fading s bd a f p' vi vo e /\ (e_commands I e = [] -> p' = p).
  Proof.
    intros E H1 H2 H3 H4 H5 H6. destruct (takes_fading bd (e_commands I e) F) as (p' & ET & EP); try congruence.
    exists p'. split.
    - split; rewrite E, ET; cbn [with_pend f_conv f_fade f_strat f_in f_out f_pend]; auto.
    - intros H. rewrite <- H6. auto.
  Qed.
  Lemma fin_faded bd e F f p : front_of e = fin I bd F -> f_fade I F = Some f -> f_pend I F = p -> faded bd f p e.
  Proof.
    intros E H1 H2. unfold fin in E. split.
    - change (e_conv I e) with (f_conv I (front_of e)). rewrite E. destruct (f_pend I F); cbn; auto.
    - intros ->. rewrite H2 in E. unfold front_of in E. injection E as Q1 Q2 Q3 Q4 Q5 Q6. rewrite Q2, Q3, Q4, Q5. auto.
  Qed.

  Lemma nth_mk c m (f : nat -> nat -> sample A) : c < w -> nth c (mk w m f) [] = tab m (f c).
  Proof. intros H. unfold mk. now rewrite tab_nth. Qed.
  Lemma chan_length m (b : audio A) c : c < w -> block_of w m b -> length (nth c b []) = m.
  Proof. intros Hc [H1 H2]. apply H2, nth_In. lia. Qed.

  (** ** the cross-fade *)
  Lemma cross_run M bd N vi vo : 0 < M -> sm_count vi = N -> sm_count vo = N ->
    forall bs k a f p e, fits w M bs -> inv M bd e -> fading kCrossfade bd a f p (sm_iter k vi) (sm_iter k vo) e ->
    k + total (removelast bs) < N ->
    exists e' outs a' f' p' olds news, eng_run I e (map (Process I) bs) = Ok (e', outs) /\ inv M bd e' /\
      feed (cv_process I) (h_cv I a) bs = Ok (a', olds) /\ feed (cv_process I) (h_cv I f) bs = Ok (f', news) /\
      (forall c, c < w -> length (channel c olds) = total bs /\ length (channel c news) = total bs /\
         channel c outs = blend (fun t => gain vo (k + t)) (channel c olds) (fun t => gain vi (k + t)) (channel c news)) /\
      (if k + total bs <? N then fading kCrossfade bd (renew a a') (renew f f') p' (sm_iter (k + total bs) vi) (sm_iter (k + total bs) vo) e'
       else faded bd (renew f f') p' e') /\
      (no_loads e -> no_loads e' /\ p' = p /\ (bs <> [] -> e_commands I e' = [])).
  Proof.
    intros HM Ci Co. induction bs as [|b bs IH]; intros k a f p e Hbs He HF Hk.
    - exists e, [], (h_cv I a), (h_cv I f), p, [], []. cbn [map eng_run feed]. split; [reflexivity|]. split; auto. split; [reflexivity|]. split; [reflexivity|].
      split; [intros c Hc; cbn; auto|]. change (total (removelast (@nil (audio A)))) with 0 in Hk. change (total (@nil (audio A))) with 0. rewrite Nat.add_0_r in *.
      rewrite (proj2 (Nat.ltb_lt _ _)) by lia. split; [destruct a, f; exact HF|]. intros HN. split; auto. split; auto. easy.
    - destruct (Hbs b (or_introl eq_refl)) as (m & Hm & Hb).
      destruct (process_front I w ok Hw HI _ bd e m b He HM Hm Hb) as (e1 & o & news1 & E & H1 & Ho & OB & N1 & X1).
      destruct HF as [F1 F2 F3 F4 F5 F6].
      destruct (ob_some bd m b _ _ o f OB F2 F3) as (c' & oa & f' & ob & Ea & Ha & Eb & Hbb & EF & Eo).
      rewrite F1 in Ea. apply proc_some in Ea. destruct Ea as (a1 & Ea & ->). apply proc_some in Eb. destruct Eb as (f1 & Eb & Q). injection Q as ->.
      rewrite F4, F5 in *.
      assert (CH : forall c, c < w -> nth c o [] = blend (fun t => gain vo (k + t)) (nth c oa []) (fun t => gain vi (k + t)) (nth c ob [])).
      { intros c Hc. rewrite Eo, nth_mk by auto. unfold blend. rewrite (chan_length m ob) by auto. apply tab_ext. intros i Hi.
        unfold at_. now rewrite !gain_iter. }
      assert (TT : total (b :: bs) = m + total bs) by now apply (total_cons w Hw).
      unfold check in EF. cbn [with_smooth with_slots f_in] in EF. unfold sm_smoothing in EF.
      rewrite <- sm_iter_add, sm_iter_count, Ci in EF. rewrite <- sm_iter_add in EF.
      destruct bs as [|b2 bs2].
      + exists e1, [o], a1, f1. cbn [map eng_run eng_step]. rewrite E. cbn [bind].
        change (total []) with 0 in TT. rewrite Nat.add_0_r in TT. rewrite TT. clear IH.
        destruct (Nat.ltb_spec 0 (N - (k + m))).
        * destruct (fading_next kCrossfade bd (renew a a1) (renew f f1) p (sm_iter (k + m) vi) (sm_iter (k + m) vo) e1 _ EF) as (p' & HF' & HP'); auto.
          exists p', [oa], [ob]. split; [reflexivity|]. split; auto. cbn [feed]. rewrite Ea, Eb. cbn [bind]. split; [reflexivity|]. split; [reflexivity|].
          split. { intros c Hc. unfold channel. cbn [map concat]. rewrite !app_nil_r, !(chan_length m) by auto. auto. }
          rewrite (proj2 (Nat.ltb_lt _ _)) by lia. split; auto.
          intros HN. destruct X1 as [_ X1]. destruct (X1 HN) as [-> HN1]. auto.
        * exists p, [oa], [ob]. split; [reflexivity|]. split; auto. cbn [feed]. rewrite Ea, Eb. cbn [bind]. split; [reflexivity|]. split; [reflexivity|].
          split. { intros c Hc. unfold channel. cbn [map concat]. rewrite !app_nil_r, !(chan_length m) by auto. auto. }
          rewrite (proj2 (Nat.ltb_ge _ _)) by lia. split; [eapply fin_faded; [exact EF|reflexivity|exact F6]|].
          intros HN. destruct X1 as [_ X1]. destruct (X1 HN) as [-> HN1]. auto.
      + assert (Hk2 : (k + m) + total (removelast (b2 :: bs2)) < N).
        { change (removelast (b :: b2 :: bs2)) with (b :: removelast (b2 :: bs2)) in Hk. rewrite (total_cons w Hw b _ m Hb) in Hk. lia. }
        rewrite (proj2 (Nat.ltb_lt _ _)) in EF by lia.
        destruct (fading_next kCrossfade bd (renew a a1) (renew f f1) p (sm_iter (k + m) vi) (sm_iter (k + m) vo) e1 _ EF) as (p1 & HF' & HP'); auto.
        destruct (IH (k + m) (renew a a1) (renew f f1) p1 e1) as (e2 & outs & a2 & f2 & p2 & olds & news & E2 & I2 & Fa & Ff & C2 & S2 & NL2); auto.
        { intros b' Hb'. apply Hbs. now right. }
        exists e2, (o :: outs), a2, f2, p2, (oa :: olds), (ob :: news).
        cbn [map] in E2 |- *. cbn [eng_run eng_step] in E2 |- *. rewrite E. cbn [bind].
        rewrite E2. cbn [bind]. split; [reflexivity|]. split; auto.
        cbn [feed h_cv renew] in Fa, Ff |- *. rewrite Ea, Eb. cbn [bind]. rewrite Fa, Ff. cbn [bind]. split; [reflexivity|]. split; [reflexivity|].
        split; [|split].
        * intros c Hc. destruct (C2 c Hc) as (La & Lb & Ec). rewrite !channel_cons, !app_length, !(chan_length m) by auto. rewrite La, Lb, TT.
          split; [reflexivity|]. split; [reflexivity|]. rewrite CH, Ec by auto. rewrite blend_app by (now rewrite !(chan_length m)). f_equal.
          rewrite (chan_length m) by auto. apply blend_ext; intros t; f_equal; lia.
        * rewrite TT. replace (k + (m + total (b2 :: bs2))) with (k + m + total (b2 :: bs2)) by lia. exact S2.
        * intros HN. destruct X1 as [_ X1]. destruct (X1 HN) as [-> HN1]. destruct (NL2 HN1) as (Q1 & Q2 & Q3). split; auto.
          split; [|intros _; apply Q3; discriminate]. rewrite Q2. auto.
  Qed.

  (** ** the in/out fade *)
  Lemma out_run M bd N vi vo : 0 < M -> 0 < sm_count vi -> sm_count vo = N ->
    forall bs k a f p e, fits w M bs -> inv M bd e -> fading kInOut bd a f p vi (sm_iter k vo) e ->
    k + total (removelast bs) < N ->
    exists e' outs a' p' olds, eng_run I e (map (Process I) bs) = Ok (e', outs) /\ inv M bd e' /\
      feed (cv_process I) (h_cv I a) bs = Ok (a', olds) /\
      (forall c, c < w -> length (channel c olds) = total bs /\
         channel c outs = scaled (fun t => gain vo (k + t)) (channel c olds)) /\
      fading kInOut bd (renew a a') f p' vi (sm_iter (k + total bs) vo) e' /\
      (no_loads e -> no_loads e' /\ p' = p /\ (bs <> [] -> e_commands I e' = [])).
  Proof.
    intros HM Ci Co. induction bs as [|b bs IH]; intros k a f p e Hbs He HF Hk.
    - exists e, [], (h_cv I a), p, []. cbn [map eng_run feed]. split; [reflexivity|]. split; auto. split; [reflexivity|].
      split; [intros c Hc; cbn; auto|]. change (total (@nil (audio A))) with 0. rewrite Nat.add_0_r in *.
      split; [destruct a; exact HF|]. intros HN. split; auto. split; auto. easy.
    - destruct (Hbs b (or_introl eq_refl)) as (m & Hm & Hb).
      destruct (process_front I w ok Hw HI _ bd e m b He HM Hm Hb) as (e1 & o & news1 & E & H1 & Ho & OB & N1 & X1).
      destruct HF as [F1 F2 F3 F4 F5 F6].
      destruct (ob_inout_out bd m b _ _ o f OB F2 F3) as (c' & oa & Ea & Ha & EF & Eo).
      { rewrite F5, sm_iter_count, Co. lia. }
      rewrite F1 in Ea. apply proc_some in Ea. destruct Ea as (a1 & Ea & ->).
      rewrite F4, F5 in *.
      assert (CH : forall c, c < w -> nth c o [] = scaled (fun t => gain vo (k + t)) (nth c oa [])).
      { intros c Hc. rewrite Eo, nth_mk by auto. unfold scaled. rewrite (chan_length m oa) by auto. apply tab_ext. intros i Hi.
        unfold at_. now rewrite !gain_iter. }
      assert (TT : total (b :: bs) = m + total bs) by now apply (total_cons w Hw).
      unfold check in EF. cbn [with_smooth with_slots f_in] in EF. unfold sm_smoothing in EF.
      rewrite (proj2 (Nat.ltb_lt _ _)) in EF by auto. rewrite <- sm_iter_add in EF.
      destruct (fading_next kInOut bd (renew a a1) f p vi (sm_iter (k + m) vo) e1 _ EF) as (p1 & HF' & HP'); auto.
      destruct bs as [|b2 bs2].
      + exists e1, [o], a1, p1, [oa]. cbn [map eng_run eng_step]. rewrite E. cbn [bind].
        change (total []) with 0 in TT. rewrite Nat.add_0_r in TT. rewrite TT. clear IH.
        split; [reflexivity|]. split; auto. cbn [feed]. rewrite Ea. cbn [bind]. split; [reflexivity|].
        split. { intros c Hc. unfold channel. cbn [map concat]. rewrite !app_nil_r, !(chan_length m) by auto. auto. }
        split; auto. intros HN. destruct X1 as [_ X1]. destruct (X1 HN) as [-> HN1]. auto.
      + assert (Hk2 : (k + m) + total (removelast (b2 :: bs2)) < N).
        { change (removelast (b :: b2 :: bs2)) with (b :: removelast (b2 :: bs2)) in Hk. rewrite (total_cons w Hw b _ m Hb) in Hk. lia. }
        destruct (IH (k + m) (renew a a1) f p1 e1) as (e2 & outs & a2 & p2 & olds & E2 & I2 & Fa & C2 & S2 & NL2); auto.
        { intros b' Hb'. apply Hbs. now right. }
        exists e2, (o :: outs), a2, p2, (oa :: olds).
        cbn [map] in E2 |- *. cbn [eng_run eng_step] in E2 |- *. rewrite E. cbn [bind].
        rewrite E2. cbn [bind]. split; [reflexivity|]. split; auto.
        cbn [feed h_cv renew] in Fa |- *. rewrite Ea. cbn [bind]. rewrite Fa. cbn [bind]. split; [reflexivity|].
        split; [|split].
        * intros c Hc. destruct (C2 c Hc) as (La & Ec). rewrite !channel_cons, !app_length, !(chan_length m) by auto. rewrite La, TT.
          split; [reflexivity|]. rewrite CH, Ec by auto. rewrite scaled_app. f_equal.
          rewrite (chan_length m) by auto. apply scaled_ext; intros t; f_equal; lia.
        * rewrite TT. replace (k + (m + total (b2 :: bs2))) with (k + m + total (b2 :: bs2)) by lia. exact S2.
        * intros HN. destruct X1 as [_ X1]. destruct (X1 HN) as [-> HN1]. destruct (NL2 HN1) as (Q1 & Q2 & Q3). split; auto.
          split; [|intros _; apply Q3; discriminate]. rewrite Q2. auto.
  Qed.

  Lemma in_run M bd N vi vo : 0 < M -> sm_count vi = N -> sm_count vo = 0 ->
    forall bs k a f p e, fits w M bs -> inv M bd e -> fading kInOut bd a f p (sm_iter k vi) vo e ->
    k + total (removelast bs) < N ->
    exists e' outs f' p' news, eng_run I e (map (Process I) bs) = Ok (e', outs) /\ inv M bd e' /\
      feed (cv_process I) (h_cv I f) bs = Ok (f', news) /\
      (forall c, c < w -> length (channel c news) = total bs /\
         channel c outs = scaled (fun t => gain vi (k + t)) (channel c news)) /\
      (if k + total bs <? N then fading kInOut bd a (renew f f') p' (sm_iter (k + total bs) vi) vo e'
       else faded bd (renew f f') p' e') /\
      (no_loads e -> no_loads e' /\ p' = p /\ (bs <> [] -> e_commands I e' = [])).
  Proof.
    intros HM Ci Co. induction bs as [|b bs IH]; intros k a f p e Hbs He HF Hk.
    - exists e, [], (h_cv I f), p, []. cbn [map eng_run feed]. split; [reflexivity|]. split; auto. split; [reflexivity|].
      split; [intros c Hc; cbn; auto|]. change (total (removelast (@nil (audio A)))) with 0 in Hk. change (total (@nil (audio A))) with 0. rewrite Nat.add_0_r in *.
      rewrite (proj2 (Nat.ltb_lt _ _)) by lia. split; [destruct f; exact HF|]. intros HN. split; auto. split; auto. easy.
    - destruct (Hbs b (or_introl eq_refl)) as (m & Hm & Hb).
      destruct (process_front I w ok Hw HI _ bd e m b He HM Hm Hb) as (e1 & o & news1 & E & H1 & Ho & OB & N1 & X1).
      destruct HF as [F1 F2 F3 F4 F5 F6].
      destruct (ob_inout_in bd m b _ _ o f OB F2 F3) as (f' & ob & Eb & Hbb & EF & Eo).
      { now rewrite F5. }
      apply proc_some in Eb. destruct Eb as (f1 & Eb & Q). injection Q as ->.
      rewrite F4, F5 in *.
      assert (CH : forall c, c < w -> nth c o [] = scaled (fun t => gain vi (k + t)) (nth c ob [])).
      { intros c Hc. rewrite Eo, nth_mk by auto. unfold scaled. rewrite (chan_length m ob) by auto. apply tab_ext. intros i Hi.
        unfold at_. now rewrite !gain_iter. }
      assert (TT : total (b :: bs) = m + total bs) by now apply (total_cons w Hw).
      unfold check in EF. cbn [with_smooth with_slots f_in] in EF. unfold sm_smoothing in EF.
      rewrite <- sm_iter_add, sm_iter_count, Ci in EF.
      destruct bs as [|b2 bs2].
      + exists e1, [o], f1. cbn [map eng_run eng_step]. rewrite E. cbn [bind].
        change (total []) with 0 in TT. rewrite Nat.add_0_r in TT. rewrite TT. clear IH.
        destruct (Nat.ltb_spec 0 (N - (k + m))).
        * destruct (fading_next kInOut bd a (renew f f1) p (sm_iter (k + m) vi) vo e1 _ EF) as (p' & HF' & HP'); auto.
          exists p', [ob]. split; [reflexivity|]. split; auto. cbn [feed]. rewrite Eb. cbn [bind]. split; [reflexivity|].
          split. { intros c Hc. unfold channel. cbn [map concat]. rewrite !app_nil_r, !(chan_length m) by auto. auto. }
          rewrite (proj2 (Nat.ltb_lt _ _)) by lia. split; auto.
          intros HN. destruct X1 as [_ X1]. destruct (X1 HN) as [-> HN1]. auto.
        * exists p, [ob]. split; [reflexivity|]. split; auto. cbn [feed]. rewrite Eb. cbn [bind]. split; [reflexivity|].
          split. { intros c Hc. unfold channel. cbn [map concat]. rewrite !app_nil_r, !(chan_length m) by auto. auto. }
          rewrite (proj2 (Nat.ltb_ge _ _)) by lia. split; [eapply fin_faded; [exact EF|reflexivity|exact F6]|].
          intros HN. destruct X1 as [_ X1]. destruct (X1 HN) as [-> HN1]. auto.
      + assert (Hk2 : (k + m) + total (removelast (b2 :: bs2)) < N).
        { change (removelast (b :: b2 :: bs2)) with (b :: removelast (b2 :: bs2)) in Hk. rewrite (total_cons w Hw b _ m Hb) in Hk. lia. }
        rewrite (proj2 (Nat.ltb_lt _ _)) in EF by lia.
        destruct (fading_next kInOut bd a (renew f f1) p (sm_iter (k + m) vi) vo e1 _ EF) as (p1 & HF' & HP'); auto.
        destruct (IH (k + m) a (renew f f1) p1 e1) as (e2 & outs & f2 & p2 & news & E2 & I2 & Ff & C2 & S2 & NL2); auto.
        { intros b' Hb'. apply Hbs. now right. }
        exists e2, (o :: outs), f2, p2, (ob :: news).
        cbn [map] in E2 |- *. cbn [eng_run eng_step] in E2 |- *. rewrite E. cbn [bind].
        rewrite E2. cbn [bind]. split; [reflexivity|]. split; auto.
        cbn [feed h_cv renew] in Ff |- *. rewrite Eb. cbn [bind]. rewrite Ff. cbn [bind]. split; [reflexivity|].
        split; [|split].
        * intros c Hc. destruct (C2 c Hc) as (Lb & Ec). rewrite !channel_cons, !app_length, !(chan_length m) by auto. rewrite Lb, TT.
          split; [reflexivity|]. rewrite CH, Ec by auto. rewrite scaled_app. f_equal.
          rewrite (chan_length m) by auto. apply scaled_ext; intros t; f_equal; lia.
        * rewrite TT. replace (k + (m + total (b2 :: bs2))) with (k + m + total (b2 :: bs2)) by lia. exact S2.
        * intros HN. destruct X1 as [_ X1]. destruct (X1 HN) as [-> HN1]. destruct (NL2 HN1) as (Q1 & Q2 & Q3). split; auto.
          split; [|intros _; apply Q3; discriminate]. rewrite Q2. auto.
  Qed.

  (** ** from the start of a fade *)
  Definition v_in (n : Z) (e : engine) : smooth A := sm_set_target true (sm_reset n (e_in I e)).
  Definition v_out (n : Z) (e : engine) : smooth A := sm_set_target false (sm_reset n (e_out I e)).
  Lemma start_fading M bd e a h s n : inv M bd e -> at_rest e -> e_conv I e = Some a -> e_commands I e = [h] ->
    fade_of bd (cv_samples I (h_cv I h)) (cv_fade I (h_cv I h)) = Ok (s, n) ->
    fading s bd a h None (v_in n e) (v_out n e) e.
  Proof.
    intros He (R1 & R2 & R3 & R4) Ha Hc Hf. destruct He as [[] _]. rewrite fade_of_ok in Hf by auto.
    assert (EL : fade_len I bd h = (s, n)) by (unfold fade_len; congruence).
    split; rewrite Hc; cbn [takes fold_left]; unfold take; cbn [front_of f_conv f_fade]; rewrite Ha, R1; unfold start; rewrite EL; cbn; auto.
  Qed.
  Lemma v_in_count n e : at_rest e -> (0 < n)%Z -> sm_count (v_in n e) = Z.to_nat n.
  Proof.
    intros (_ & _ & R3 & _) Hn. unfold v_in, sm_set_target. cbn [sm_reset sm_target sm_steps]. rewrite R3. cbn [Bool.eqb].
    destruct (Z.leb_spec n 0); [lia|reflexivity].
  Qed.
  Lemma v_out_count n e : at_rest e -> (0 < n)%Z -> sm_count (v_out n e) = Z.to_nat n.
  Proof.
    intros (_ & _ & _ & R4) Hn. unfold v_out, sm_set_target. cbn [sm_reset sm_target sm_steps]. rewrite R4. cbn [Bool.eqb].
    destruct (Z.leb_spec n 0); [lia|reflexivity].
  Qed.

  Lemma cut_at N : 0 < N -> forall bs : list (audio A), exists bs1 bs2, bs = bs1 ++ bs2 /\ total (removelast bs1) < N /\
    (bs2 <> [] -> N <= total bs1).
  Proof.
    intros HN bs. induction bs as [|b bs IH] using rev_ind.
    - exists [], []. repeat split; cbn; auto; easy.
    - destruct IH as (bs1 & bs2 & E & H1 & H2). destruct bs2 as [|b2 bs2].
      + rewrite app_nil_r in E. subst bs1. destruct (Nat.le_gt_cases N (total bs)) as [H|H].
        * exists bs, [b]. repeat split; auto.
        * exists (bs ++ [b]), []. rewrite app_nil_r, removelast_last. repeat split; auto; easy.
      + exists bs1, (b2 :: bs2 ++ [b]). split; [rewrite E, <- app_assoc; reflexivity|]. split; auto. intros _. apply H2. discriminate.
  Qed.
  Lemma fits_app M (a b : list (audio A)) : fits w M (a ++ b) -> fits w M a /\ fits w M b.
  Proof. intros H. split; intros x Hx; apply H, in_or_app; auto. Qed.
  Lemma feed_app {St Bl} (process : St -> Bl -> res (St * Bl)) : forall a s b s1 o1 s2 o2,
    feed process s a = Ok (s1, o1) -> feed process s1 b = Ok (s2, o2) -> feed process s (a ++ b) = Ok (s2, o1 ++ o2).
  Proof.
    induction a as [|x a IH]; intros s b s1 o1 s2 o2 H1 H2; cbn [feed app] in *.
    - now injection H1 as <- <-.
    - destruct (process s x) as [[s3 o3]| |]; cbn [bind] in *; try discriminate.
      destruct (feed process s3 a) as [[s4 o4]| |] eqn:E; cbn [bind] in *; try discriminate. injection H1 as <- <-.
      rewrite (IH _ _ _ _ _ _ E H2). reflexivity.
  Qed.
  Lemma feed_ok M : forall bs c, ok c -> fits w M bs -> exists c' outs, feed (cv_process I) c bs = Ok (c', outs) /\ ok c' /\
    forall k, k < w -> length (channel k outs) = total bs.
  Proof.
    induction bs as [|b bs IH]; intros c Hc Hbs; cbn [feed].
    - exists c, []. repeat split; auto.
    - destruct (Hbs b (or_introl eq_refl)) as (m & Hm & Hb). destruct (proj1 HI c m b Hc Hb) as (c1 & o & -> & Hc1 & Ho). cbn [bind].
      destruct (IH c1 Hc1) as (c2 & os & -> & Hc2 & HL). { intros x Hx. apply Hbs. now right. }
      cbn [bind]. exists c2, (o :: os). split; [reflexivity|]. split; auto. intros k Hk.
      rewrite channel_cons, app_length, (chan_length m), HL by auto. symmetry. now apply (total_cons w Hw).
  Qed.
  Lemma total_app (a b : list (audio A)) : total (a ++ b) = total a + total b.
  Proof. unfold total. now rewrite map_app, list_sum_app. Qed.
  Lemma faded_alone M bd f e : inv M bd e -> faded bd f None e -> e_commands I e = [] -> alone I e /\ e_conv I e = Some f.
  Proof. intros He (H1 & H2) Hc. destruct (H2 eq_refl) as (X1 & X2 & _). unfold alone. auto. Qed.

  Lemma in_of_run1 {T} (x : T) l : x :: l <> []. Proof. discriminate. Qed.

  Lemma crossfade_whole (L : arith_laws A) (HInv : inv_law A) M bd e a h n bs :
    0 < M -> inv M bd e -> at_rest e -> no_loads e -> e_conv I e = Some a -> e_commands I e = [h] ->
    fade_of bd (cv_samples I (h_cv I h)) (cv_fade I (h_cv I h)) = Ok (kCrossfade, n) -> (0 < n)%Z -> fits w M bs ->
    exists e' outs a' h' olds news, eng_run I e (map (Process I) bs) = Ok (e', outs) /\
      feed (cv_process I) (h_cv I a) bs = Ok (a', olds) /\ feed (cv_process I) (h_cv I h) bs = Ok (h', news) /\
      (forall c, c < w -> length (channel c olds) = total bs /\ length (channel c news) = total bs /\
         channel c outs = blend (fall (Z.to_nat n)) (channel c olds) (rise (Z.to_nat n)) (channel c news)) /\
      (Z.to_nat n <= total bs -> e_conv I e' = Some (renew h h') /\ e_commands I e' = [] /\ at_rest e' /\ no_loads e' /\ inv M bd e').
  Proof.
    intros HM He HR HN Ha Hc Hf Hn Hbs. set (N := Z.to_nat n) in *. assert (HN0 : 0 < N) by lia.
    destruct (cut_at N HN0 bs) as (bs1 & bs2 & Ebs & H1 & H2). rewrite Ebs in Hbs. destruct (fits_app M bs1 bs2 Hbs) as [Hb1 Hb2].
    pose proof (start_fading M bd e a h _ n He HR Ha Hc Hf) as HF.
    destruct (cross_run M bd N (v_in n e) (v_out n e) HM (v_in_count n e HR Hn) (v_out_count n e HR Hn) bs1 0 a h None e Hb1 He HF H1)
      as (e1 & outs1 & a1 & h1 & p1 & olds1 & news1 & E1 & I1 & Fa1 & Fh1 & C1 & S1 & NL1).
    destruct (NL1 HN) as (HN1 & -> & Hc1). cbn [Nat.add] in S1.
    assert (G1 : forall c, c < w -> channel c outs1 = blend (fall N) (channel c olds1) (rise N) (channel c news1)).
    { intros c Hcw. destruct (C1 c Hcw) as (_ & _ & ->). apply blend_ext; intros t; cbn [Nat.add].
      - apply (fall_gain L HInv); auto. apply HR.
      - apply (rise_gain L HInv); auto. apply HR. }
    destruct bs2 as [|b2 bs2'].
    - rewrite app_nil_r in Ebs. subst bs1. exists e1, outs1, a1, h1, olds1, news1. split; auto. split; auto. split; auto. split.
      + intros c Hcw. destruct (C1 c Hcw) as (X1 & X2 & _). auto.
      + intros HT. rewrite (proj2 (Nat.ltb_ge _ _)) in S1 by auto. destruct S1 as [S1 S2]. destruct (S2 eq_refl) as (X1 & X2 & X3 & X4).
        split; auto. split; [apply Hc1; intros ->; cbn in HT; lia|]. split; [repeat split; auto|]. auto.
    - set (bs2 := b2 :: bs2') in *. assert (HT : N <= total bs1) by (apply H2; discriminate).
      rewrite (proj2 (Nat.ltb_ge _ _)) in S1 by auto.
      assert (Hc1' : e_commands I e1 = []) by (apply Hc1; intros ->; cbn in HT; lia).
      destruct (faded_alone M bd _ e1 I1 S1 Hc1') as [AL1 EC1].
      destruct (alone_run I w ok Hw HI M bd HM bs2 e1 Hb2 I1 HN1 AL1) as (e2 & outs2 & E2 & I2 & HN2 & AL2 & EI & EO & P2).
      rewrite EC1 in P2. destruct P2 as (h2 & Fh2 & EC2). cbn [renew h_id h_cv] in Fh2, EC2.
      assert (Ha1 : ok a1).
      { destruct (feed_ok M bs1 (h_cv I a)) as (x & y & Fx & Hx & _); auto; [|congruence]. destruct He as [[] _]. apply (i_conv a Ha). }
      assert (Hh1 : ok h1).
      { destruct (feed_ok M bs1 (h_cv I h)) as (x & y & Fx & Hx & _); auto; [|congruence]. destruct He as [_ [Q _]]. rewrite Hc in Q. now inversion Q. }
      destruct (feed_ok M bs2 a1 Ha1 Hb2) as (a2 & olds2 & Fa2 & _ & La2).
      destruct (feed_ok M bs2 h1 Hh1 Hb2) as (h2' & outs2' & Fh2' & _ & Lh2). rewrite Fh2 in Fh2'. injection Fh2' as <- <-.
      exists e2, (outs1 ++ outs2), a2, h2, (olds1 ++ olds2), (news1 ++ outs2).
      rewrite Ebs, map_app, run_app, E1. cbn [bind]. rewrite E2. cbn [bind]. split; [reflexivity|].
      split; [eapply feed_app; eauto|]. split; [eapply feed_app; eauto|]. split.
      + intros c Hcw. destruct (C1 c Hcw) as (X1 & X2 & _). rewrite !channel_app, !app_length, total_app, X1, X2, La2, Lh2 by auto.
        split; [reflexivity|]. split; [reflexivity|]. rewrite blend_app by congruence. rewrite <- G1 by auto. f_equal. symmetry.
        apply (blend_new L).
        * intros t _. apply (fall_done L). lia.
        * intros t _. apply (rise_done HInv); lia.
      + intros _. destruct S1 as [_ S1]. destruct (S1 eq_refl) as (_ & _ & X3 & X4). destruct AL2 as (Y1 & Y2 & Y3).
        split; auto. split; auto. split; [repeat split; congruence|]. auto.
  Qed.

  Lemma inout_whole (L : arith_laws A) (HInv : inv_law A) M bd e a h n bs1 bs2 :
    0 < M -> inv M bd e -> at_rest e -> no_loads e -> e_conv I e = Some a -> e_commands I e = [h] ->
    fade_of bd (cv_samples I (h_cv I h)) (cv_fade I (h_cv I h)) = Ok (kInOut, n) -> (0 < n)%Z -> fits w M bs1 -> fits w M bs2 ->
    total (removelast bs1) < Z.to_nat n -> (bs2 <> [] -> Z.to_nat n <= total bs1) ->
    exists e' outs1 outs2 a' h' olds news, eng_run I e (map (Process I) (bs1 ++ bs2)) = Ok (e', outs1 ++ outs2) /\
      feed (cv_process I) (h_cv I a) bs1 = Ok (a', olds) /\ feed (cv_process I) (h_cv I h) bs2 = Ok (h', news) /\
      (forall c, c < w -> length (channel c olds) = total bs1 /\ length (channel c news) = total bs2 /\
         channel c outs1 = scaled (fall (Z.to_nat n)) (channel c olds) /\
         channel c outs2 = scaled (rise (Z.to_nat n)) (channel c news)) /\
      (Z.to_nat n <= total bs2 -> e_conv I e' = Some (renew h h') /\ e_commands I e' = [] /\ at_rest e' /\ no_loads e' /\ inv M bd e').
  Proof.
    intros HM He HR HN Ha Hc Hf Hn Hb1 Hb2 H1 H2. set (N := Z.to_nat n) in *. assert (HN0 : 0 < N) by lia.
    pose proof (start_fading M bd e a h _ n He HR Ha Hc Hf) as HF.
    pose proof (v_in_count n e HR Hn) as Ci. pose proof (v_out_count n e HR Hn) as Co.
    destruct (out_run M bd N (v_in n e) (v_out n e) HM ltac:(rewrite Ci; exact HN0) Co bs1 0 a h None e Hb1 He HF H1)
      as (e1 & outs1 & a1 & p1 & olds1 & E1 & I1 & Fa1 & C1 & S1 & NL1).
    destruct (NL1 HN) as (HN1 & -> & Hc1). cbn [Nat.add] in S1.
    assert (G1 : forall c, c < w -> channel c outs1 = scaled (fall N) (channel c olds1)).
    { intros c Hcw. destruct (C1 c Hcw) as (_ & ->). apply scaled_ext; intros t; cbn [Nat.add].
      apply (fall_gain L HInv); auto. apply HR. }
    rewrite map_app, run_app, E1. cbn [bind].
    destruct (cut_at N HN0 bs2) as (bs3 & bs4 & Ebs & H3 & H4). rewrite Ebs in Hb2. destruct (fits_app M bs3 bs4 Hb2) as [Hb3 Hb4].
    assert (D : bs2 = [] \/ bs2 <> []) by (destruct bs2; [left|right]; [reflexivity|discriminate]).
    destruct D as [D|D].
    { rewrite D. exists e1, outs1, [], a1, (h_cv I h), olds1, []. cbn [map eng_run bind feed]. split; [reflexivity|]. split; auto. split; auto.
      split; [intros c Hcw; destruct (C1 c Hcw); auto|]. cbn. intros; lia. }
    specialize (H2 D).
    destruct (in_run M bd N (v_in n e) (sm_iter (total bs1) (v_out n e)) HM Ci ltac:(rewrite sm_iter_count, Co; fold N; lia) bs3 0 (renew a a1) h None e1 Hb3 I1 S1 H3)
      as (e2 & outs2 & h2 & p2 & news2 & E2 & I2 & Fh2 & C2 & S2 & NL2).
    destruct (NL2 HN1) as (HN2 & -> & Hc2). cbn [Nat.add] in S2.
    assert (G2 : forall c, c < w -> channel c outs2 = scaled (rise N) (channel c news2)).
    { intros c Hcw. destruct (C2 c Hcw) as (_ & ->). apply scaled_ext; intros t; cbn [Nat.add].
      apply (rise_gain L HInv); auto. apply HR. }
    destruct bs4 as [|b4 bs4'].
    - rewrite app_nil_r in Ebs. subst bs3. exists e2, outs1, outs2, a1, h2, olds1, news2. rewrite E2. cbn [bind]. split; [reflexivity|].
      split; auto. split; auto. split.
      + intros c Hcw. destruct (C1 c Hcw) as (X1 & _). destruct (C2 c Hcw) as (X2 & _). auto.
      + intros HT. rewrite (proj2 (Nat.ltb_ge _ _)) in S2 by auto. destruct S2 as [S2 S3]. destruct (S3 eq_refl) as (X1 & X2 & X3 & X4).
        split; auto. split; [now apply Hc2|]. split; [repeat split; auto|]. auto.
    - set (bs4 := b4 :: bs4') in *. assert (HT : N <= total bs3) by (apply H4; discriminate).
      rewrite (proj2 (Nat.ltb_ge _ _)) in S2 by auto.
      assert (Hc2' : e_commands I e2 = []) by (apply Hc2; intros ->; cbn in HT; lia).
      destruct (faded_alone M bd _ e2 I2 S2 Hc2') as [AL2 EC2].
      destruct (alone_run I w ok Hw HI M bd HM bs4 e2 Hb4 I2 HN2 AL2) as (e3 & outs3 & E3 & I3 & HN3 & AL3 & EI & EO & P3).
      rewrite EC2 in P3. destruct P3 as (h3 & Fh3 & EC3). cbn [renew h_id h_cv] in Fh3, EC3.
      assert (Hh2 : ok h2).
      { destruct (feed_ok M bs3 (h_cv I h)) as (x & y & Fx & Hx & _); auto; [|congruence]. destruct He as [_ [Q _]]. rewrite Hc in Q. now inversion Q. }
      destruct (feed_ok M bs4 h2 Hh2 Hb4) as (h3' & outs3' & Fh3' & _ & Lh3). rewrite Fh3 in Fh3'. injection Fh3' as <- <-.
      exists e3, outs1, (outs2 ++ outs3), a1, h3, olds1, (news2 ++ outs3).
      rewrite Ebs, map_app, run_app, E2. cbn [bind]. rewrite E3. cbn [bind]. split; [reflexivity|].
      split; auto. split; [eapply feed_app; eauto|]. split.
      + intros c Hcw. destruct (C1 c Hcw) as (X1 & _). destruct (C2 c Hcw) as (X2 & _).
        rewrite !channel_app, !app_length, total_app, X2, Lh3 by auto.
        split; auto. split; [reflexivity|]. split; [auto|]. rewrite scaled_app, <- G2 by auto. f_equal. symmetry.
        apply (scaled_one L). intros t _. apply (rise_done HInv); lia.
      + intros _. destruct S2 as [_ S2]. destruct (S2 eq_refl) as (_ & _ & X3 & X4). destruct AL3 as (Y1 & Y2 & Y3).
        split; auto. split; auto. split; [repeat split; congruence|]. auto.
  Qed.
End Fade.

(** * Every fade, from beginning to end *)
From Verif.Model Require Import Base Arith Juce Float32 SmoothedValue Convolver ConvolutionEngine.
From Verif.Spec Require Import Transform Signal Engine.
From Verif.Proofs Require Import Lists Blocks Streams FFTProof FadeProof SmoothProof EngineProof EngineInv EngineFront EngineCalm EngineRun EngineFade EngineMore.

Section Levels.
  Context {A : arith} (L : arith_laws A) (HInv : inv_law A) (I : conv_if A).
  Notation engine := (engine I).
  Notation held := (held I).
  Notation front := (front I).
  Notation front_of := (front_of I).
  Variable w : nat.
  Variable ok : cv I -> Prop.
  Hypothesis Hw : 0 < w.
  Hypothesis HI : accepting I w ok.
  Notation inv := (inv I w ok).

  Definition vlev (N : nat) (g : nat -> nat -> sample A) (j : nat) (v : smooth A) : Prop :=
    sm_count v = N - j /\ forall i, gain v i = g N (j + i).
  Lemma vlev_iter N g j m v : vlev N g j v -> vlev N g (j + m) (sm_iter m v).
  Proof.
    intros [H1 H2]. split; [rewrite sm_iter_count, H1; lia|]. intros i. rewrite gain_iter, H2. f_equal. lia.
  Qed.
  Lemma vlev_values N g j v : vlev N g j v <-> sm_count v = N - j /\ forall m, snd (sm_values m v) = tab m (fun t => g N (j + t)).
  Proof.
    split; intros [H1 H2]; split; auto.
    - intros m. rewrite sm_values_eq. cbn [snd]. apply tab_ext. auto.
    - intros i. specialize (H2 (S i)). rewrite sm_values_eq in H2. cbn [snd] in H2.
      apply (f_equal (fun l => nth i l s0)) in H2. now rewrite !tab_nth in H2 by lia.
  Qed.
  Lemma levels_v n j k (e : engine) : levels n j k e <-> vlev n rise j (e_in I e) /\ vlev n fall k (e_out I e).
  Proof. unfold levels. rewrite !vlev_values. tauto. Qed.

  Definition fin_fade (s : fade_strategy) (a h : held) (n j k : nat) (F : front) : Prop :=
    f_conv I F = Some a /\ f_fade I F = Some h /\ f_strat I F = s /\ vlev n rise j (f_in I F) /\ vlev n fall k (f_out I F).
  Lemma fin_fade_of s a h n j k e : fin_fade s a h n j k (front_of e) <-> between s a h e /\ levels n j k e.
  Proof. unfold fin_fade, between. rewrite levels_v. cbn [front_of f_conv f_fade f_strat f_in f_out]. tauto. Qed.
  Lemma takes_fin_fade bd l s a h n j k F : fin_fade s a h n j k F -> fin_fade s a h n j k (takes I bd l F).
  Proof.
    intros (H1 & H2 & H3 & H4). destruct (takes_fading I bd l F) as (p & E & _); try congruence.
    rewrite E. unfold fin_fade. cbn. tauto.
  Qed.
  Lemma start_fin_fade bd h F a : f_conv I F = Some a -> sm_target (f_in I F) = false -> sm_target (f_out I F) = true ->
    (0 < snd (fade_len I bd h))%Z ->
    fin_fade (fst (fade_len I bd h)) a h (Z.to_nat (snd (fade_len I bd h))) 0 0 (start I bd h F).
  Proof.
    intros H1 H2 H3 Hn. unfold fin_fade, start. cbn [f_conv f_fade f_strat f_in f_out]. split; auto. split; auto. split; auto.
    split; split.
    - unfold sm_set_target. cbn [sm_reset sm_target sm_steps]. rewrite H2. cbn [Bool.eqb].
      destruct (Z.leb_spec (snd (fade_len I bd h)) 0); [lia|]. cbn. lia.
    - intros i. now apply (rise_gain L HInv).
    - unfold sm_set_target. cbn [sm_reset sm_target sm_steps]. rewrite H3. cbn [Bool.eqb].
      destruct (Z.leb_spec (snd (fade_len I bd h)) 0); [lia|]. cbn. lia.
    - intros i. now apply (fall_gain L HInv).
  Qed.
  Definition positive (bd : bounds) : Prop := (0 < lower_fade_bound bd <= upper_fade_bound bd)%Z /\ (0 < in_out_fade_length bd)%Z.
  Lemma fade_len_pos bd h : positive bd -> (0 < snd (fade_len I bd h))%Z.
  Proof. intros [H1 H2]. unfold fade_len. destruct (cv_fade I (h_cv I h)); [cbn; lia|]. destruct (_ <=? _)%Z; cbn [snd]; lia. Qed.

  Lemma fade_len_of M bd e h s n : inv M bd e ->
    fade_of bd (cv_samples I (h_cv I h)) (cv_fade I (h_cv I h)) = Ok (s, n) <-> fade_len I bd h = (s, n).
  Proof.
    intros [[] _]. rewrite fade_of_ok by auto. unfold fade_len. destruct (cv_fade I (h_cv I h)); [|destruct (_ <=? _)%Z]; split; congruence.
  Qed.

  (** the state once the queue has been served *)
  Lemma begins_front M bd s a h n e : inv M bd e -> 0 < n -> begins bd s a h n e ->
    fin_fade s a h n 0 0 (takes I bd (e_commands I e) (front_of e)).
  Proof.
    intros He Hn ((R1 & R2 & R3 & R4) & Ha & Hh & Hf). destruct (e_commands I e) as [|h' t]; [discriminate|]. injection Hh as ->.
    cbn [takes fold_left]. fold (takes I bd t (take I bd (front_of e) h)). apply takes_fin_fade.
    unfold take. cbn [front_of f_conv f_fade]. rewrite Ha, R1. apply (fade_len_of M bd e h s) in Hf; auto.
    pose proof (start_fin_fade bd h (front_of e) a Ha R3 R4) as H. rewrite Hf in H. cbn [fst snd] in H. rewrite Nat2Z.id in H. apply H. lia.
  Qed.
  Lemma crossing_front M bd a h n k e : inv M bd e -> crossing bd a h n k e ->
    k < n /\ fin_fade kCrossfade a h n k k (takes I bd (e_commands I e) (front_of e)).
  Proof.
    intros He [Hk [[-> H]|H]]; split; auto.
    - eapply begins_front; eauto.
    - apply takes_fin_fade. now apply fin_fade_of.
  Qed.
  Lemma leaving_front M bd a h n k e : inv M bd e -> leaving bd a h n k e ->
    k < n /\ fin_fade kInOut a h n 0 k (takes I bd (e_commands I e) (front_of e)).
  Proof.
    intros He [Hk [[-> H]|H]]; split; auto.
    - eapply begins_front; eauto.
    - apply takes_fin_fade. now apply fin_fade_of.
  Qed.

  (** when the fade is over *)
  Lemma fin_arrived M bd e F h : inv M bd e -> positive bd -> front_of e = fin I bd F -> f_fade I F = Some h -> arrived bd h e.
  Proof.
    intros He HP E Hf. unfold fin in E. destruct (f_pend I F) as [q|] eqn:Ep.
    - set (F1 := {| f_conv := f_fade I F; f_fade := None; f_pend := None; f_in := _; f_out := _; f_strat := _ |}) in E.
      pose proof (start_fin_fade bd q F1 h Hf eq_refl eq_refl (fade_len_pos bd q HP)) as HS. rewrite <- E in HS.
      split; [exact (proj1 HS)|]. right. exists q. destruct (fade_len I bd q) as [s n] eqn:EL. cbn [fst snd] in HS.
      pose proof (fade_len_pos bd q HP) as Hn. rewrite EL in Hn. cbn [snd] in Hn.
      exists (Z.to_nat n). apply fin_fade_of in HS. destruct s; [right|left]; (split; [lia|now right]).
    - rewrite Hf in E. injection E as X1 X2 X3 X4 X5 X6. split; auto. left. repeat split; auto; [now rewrite X4|now rewrite X5].
  Qed.

  (** ** one block *)
  Lemma cross_block M bd a h n k e m b : 0 < M -> inv M bd e -> positive bd -> crossing bd a h n k e -> m <= M -> block_of w m b ->
    exists e' o a' h' oa oh, eng_process I e b = Ok (e', o) /\ inv M bd e' /\
      cv_process I (h_cv I a) b = Ok (a', oa) /\ block_of w m oa /\ cv_process I (h_cv I h) b = Ok (h', oh) /\ block_of w m oh /\
      o = mk w m (fun c i => sadd (smul (at_ oa c i) (fall n (k + i))) (smul (at_ oh c i) (rise n (k + i)))) /\
      (if k + m <? n then crossing bd (renew I a a') (renew I h h') n (k + m) e' else arrived bd (renew I h h') e').
  Proof.
    intros HM He HP HC Hm Hb. destruct (crossing_front M bd a h n k e He HC) as (Hk & F1 & F2 & F3 & F4 & F5).
    destruct (process_front I w ok Hw HI M bd e m b He HM Hm Hb) as (e' & o & news & E & He' & _ & HO & _).
    destruct (ob_some I w bd m b _ _ o h HO F2 F3) as (c' & oa & f' & ob & Ea & Ha & Eb & Hbb & EF & Eo).
    rewrite F1 in Ea. apply proc_some in Ea. destruct Ea as (a' & Ea & ->). apply proc_some in Eb. destruct Eb as (h' & Eb & Q). injection Q as ->.
    exists e', o, a', h', oa, ob. split; auto. split; auto. split; auto. split; auto. split; auto. split; auto. split.
    - rewrite Eo. apply mk_ext. intros c i Hc Hi. destruct F4 as [_ G4], F5 as [_ G5]. now rewrite G4, G5.
    - unfold check in EF. cbn [with_smooth f_in] in EF. unfold sm_smoothing in EF.
      pose proof (vlev_iter _ _ _ m _ F4) as V4. pose proof (vlev_iter _ _ _ m _ F5) as V5.
      rewrite (proj1 V4) in EF. destruct (Nat.ltb_spec (k + m) n).
      + rewrite (proj2 (Nat.ltb_lt _ _)) in EF by lia. split; auto. right. apply fin_fade_of. rewrite EF.
        unfold fin_fade. cbn [with_smooth with_slots f_conv f_fade f_strat f_in f_out]. repeat split; auto; try apply V4; apply V5.
      + rewrite (proj2 (Nat.ltb_ge _ _)) in EF by lia. eapply fin_arrived; eauto.
  Qed.
  Lemma leave_block M bd a h n k e m b : 0 < M -> inv M bd e -> positive bd -> leaving bd a h n k e -> m <= M -> block_of w m b ->
    exists e' o a' oa, eng_process I e b = Ok (e', o) /\ inv M bd e' /\
      cv_process I (h_cv I a) b = Ok (a', oa) /\ block_of w m oa /\
      o = mk w m (fun c i => smul (at_ oa c i) (fall n (k + i))) /\
      (if k + m <? n then leaving bd (renew I a a') h n (k + m) e' else entering (renew I a a') h n 0 e').
  Proof.
    intros HM He HP HC Hm Hb. destruct (leaving_front M bd a h n k e He HC) as (Hk & F1 & F2 & F3 & F4 & F5).
    destruct (process_front I w ok Hw HI M bd e m b He HM Hm Hb) as (e' & o & news & E & He' & _ & HO & _).
    destruct (ob_inout_out I w Hw bd m b _ _ o h HO F2 F3) as (c' & oa & Ea & Ha & EF & Eo).
    { rewrite (proj1 F5). lia. }
    rewrite F1 in Ea. apply proc_some in Ea. destruct Ea as (a' & Ea & ->).
    exists e', o, a', oa. split; auto. split; auto. split; auto. split; auto. split.
    - rewrite Eo. apply mk_ext. intros c i Hc Hi. destruct F5 as [_ G5]. now rewrite G5.
    - unfold check in EF. cbn [with_smooth f_in] in EF. unfold sm_smoothing in EF.
      pose proof (vlev_iter _ _ _ m _ F5) as V5.
      rewrite (proj1 F4) in EF. rewrite (proj2 (Nat.ltb_lt _ _)) in EF by lia.
      assert (HF : fin_fade kInOut (renew I a a') h n 0 (k + m) (front_of e')).
      { rewrite EF. unfold fin_fade. cbn [with_smooth with_slots f_conv f_fade f_strat f_in f_out]. repeat split; auto; try apply F4; apply V5. }
      apply fin_fade_of in HF. destruct (Nat.ltb_spec (k + m) n); [split; auto|]. split; [lia|]. split; [tauto|]. exists (k + m). tauto.
  Qed.
  Lemma enter_block M bd a h n k e m b : 0 < M -> inv M bd e -> positive bd -> entering a h n k e -> m <= M -> block_of w m b ->
    exists e' o h' oh, eng_process I e b = Ok (e', o) /\ inv M bd e' /\
      cv_process I (h_cv I h) b = Ok (h', oh) /\ block_of w m oh /\
      o = mk w m (fun c i => smul (at_ oh c i) (rise n (k + i))) /\
      (if k + m <? n then entering a (renew I h h') n (k + m) e' else arrived bd (renew I h h') e').
  Proof.
    intros HM He HP (Hk & HB & k' & Hk' & HL) Hm Hb.
    assert (HF : fin_fade kInOut a h n k k' (takes I bd (e_commands I e) (front_of e))).
    { apply takes_fin_fade, fin_fade_of. auto. }
    destruct HF as (F1 & F2 & F3 & F4 & F5).
    destruct (process_front I w ok Hw HI M bd e m b He HM Hm Hb) as (e' & o & news & E & He' & _ & HO & _).
    destruct (ob_inout_in I w Hw bd m b _ _ o h HO F2 F3) as (f' & ob & Eb & Hbb & EF & Eo).
    { rewrite (proj1 F5). lia. }
    apply proc_some in Eb. destruct Eb as (h' & Eb & Q). injection Q as ->.
    exists e', o, h', ob. split; auto. split; auto. split; auto. split; auto. split.
    - rewrite Eo. apply mk_ext. intros c i Hc Hi. destruct F4 as [_ G4]. now rewrite G4.
    - unfold check in EF. cbn [with_smooth f_in] in EF. unfold sm_smoothing in EF.
      pose proof (vlev_iter _ _ _ m _ F4) as V4.
      rewrite (proj1 V4) in EF. destruct (Nat.ltb_spec (k + m) n).
      + rewrite (proj2 (Nat.ltb_lt _ _)) in EF by lia. split; auto.
        assert (HF : fin_fade kInOut a (renew I h h') n (k + m) k' (front_of e')).
        { rewrite EF. unfold fin_fade. cbn [with_smooth with_slots f_conv f_fade f_strat f_in f_out]. repeat split; auto; try apply V4; apply F5. }
        apply fin_fade_of in HF. split; [tauto|]. exists k'. tauto.
      + rewrite (proj2 (Nat.ltb_ge _ _)) in EF by lia. eapply fin_arrived; eauto.
  Qed.

  (** ** several blocks *)
  Definition blend_block (g g' : nat -> sample A) m (oa oh : audio A) : audio A :=
    mk w m (fun c i => sadd (smul (at_ oa c i) (g i)) (smul (at_ oh c i) (g' i))).
  Lemma blend_chan g g' m (oa oh : audio A) c : c < w -> block_of w m oh ->
    nth c (blend_block g g' m oa oh) [] = blend g (nth c oa []) g' (nth c oh []).
  Proof.
    intros Hc Ho. unfold blend_block. rewrite (nth_mk w) by auto. unfold blend. rewrite (chan_length w Hw m oh) by auto. reflexivity.
  Qed.
  Lemma scaled_chan g m (oa : audio A) c : c < w -> block_of w m oa ->
    nth c (mk w m (fun c i => smul (at_ oa c i) (g i))) [] = scaled g (nth c oa []).
  Proof.
    intros Hc Ho. rewrite (nth_mk w) by auto. unfold scaled. rewrite (chan_length w Hw m oa) by auto. reflexivity.
  Qed.

  Lemma cross_blocks M bd n : 0 < M -> positive bd -> forall bs k a h e, fits w M bs -> inv M bd e -> crossing bd a h n k e ->
    k + total (removelast bs) < n ->
    exists e' outs a' h' olds news, eng_run I e (map (Process I) bs) = Ok (e', outs) /\ inv M bd e' /\
      feed (cv_process I) (h_cv I a) bs = Ok (a', olds) /\ feed (cv_process I) (h_cv I h) bs = Ok (h', news) /\
      (forall c, c < w -> length (channel c olds) = total bs /\ length (channel c news) = total bs /\
         channel c outs = blend (fun t => fall n (k + t)) (channel c olds) (fun t => rise n (k + t)) (channel c news)) /\
      (if k + total bs <? n then crossing bd (renew I a a') (renew I h h') n (k + total bs) e' else arrived bd (renew I h h') e').
  Proof.
    intros HM HP. induction bs as [|b bs IH]; intros k a h e Hbs He HC Hk.
    - exists e, [], (h_cv I a), (h_cv I h), [], []. change (total []) with 0. rewrite Nat.add_0_r.
      split; [reflexivity|]. split; auto. split; [reflexivity|]. split; [reflexivity|]. split; [intros c Hc; cbn; auto|].
      rewrite (proj2 (Nat.ltb_lt _ _)) by apply HC. destruct a, h; exact HC.
    - destruct (Hbs b (or_introl eq_refl)) as (m & Hm & Hb).
      destruct (cross_block M bd a h n k e m b HM He HP HC Hm Hb) as (e1 & o & a1 & h1 & oa & oh & E & He1 & Ea & Hoa & Eh & Hoh & Eo & HS).
      assert (TT : total (b :: bs) = m + total bs) by now apply (total_cons w Hw).
      assert (CH : forall c, c < w -> nth c o [] = blend (fun t => fall n (k + t)) (nth c oa []) (fun t => rise n (k + t)) (nth c oh [])).
      { intros c Hc. rewrite Eo. fold (blend_block (fun t => fall n (k + t)) (fun t => rise n (k + t)) m oa oh). now apply blend_chan. }
      destruct bs as [|b2 bs2].
      + exists e1, [o], a1, h1, [oa], [oh]. cbn [map eng_run eng_step feed]. rewrite E, Ea, Eh. cbn [bind].
        split; [reflexivity|]. split; auto. split; [reflexivity|]. split; [reflexivity|].
        rewrite TT. change (total []) with 0. rewrite Nat.add_0_r. split; [|exact HS].
        intros c Hc. unfold channel. cbn [map concat]. rewrite !app_nil_r, !(chan_length w Hw m) by auto. auto.
      + assert (Hk2 : (k + m) + total (removelast (b2 :: bs2)) < n).
        { change (removelast (b :: b2 :: bs2)) with (b :: removelast (b2 :: bs2)) in Hk. rewrite (total_cons w Hw b _ m Hb) in Hk. lia. }
        rewrite (proj2 (Nat.ltb_lt _ _)) in HS by lia.
        assert (Hbs2 : fits w M (b2 :: bs2)) by (intros b' Hb'; apply Hbs; now right).
        destruct (IH (k + m) _ _ e1 Hbs2 He1 HS Hk2) as (e2 & outs & a2 & h2 & olds & news & E2 & He2 & Fa & Fh & C2 & S2).
        exists e2, (o :: outs), a2, h2, (oa :: olds), (oh :: news).
        set (bs' := b2 :: bs2) in *. cbn [map eng_run eng_step]. rewrite E. cbn [bind]. rewrite E2. cbn [bind].
        split; [reflexivity|]. split; auto. cbn [renew h_cv] in Fa, Fh. cbn [feed]. rewrite Ea, Eh. cbn [bind]. rewrite Fa, Fh. cbn [bind].
        split; [reflexivity|]. split; [reflexivity|]. split.
        * intros c Hc. destruct (C2 c Hc) as (La & Lb & Ec). rewrite !channel_cons, !app_length, !(chan_length w Hw m) by auto. rewrite La, Lb, TT.
          split; [reflexivity|]. split; [reflexivity|]. rewrite CH, Ec by auto. rewrite blend_app by (now rewrite !(chan_length w Hw m)). f_equal.
          rewrite (chan_length w Hw m) by auto. apply blend_ext; intros t; f_equal; lia.
        * rewrite TT. replace (k + (m + total bs')) with (k + m + total bs') by lia. exact S2.
  Qed.
  Lemma leave_blocks M bd n : 0 < M -> positive bd -> forall bs k a h e, fits w M bs -> inv M bd e -> leaving bd a h n k e ->
    k + total (removelast bs) < n ->
    exists e' outs a' olds, eng_run I e (map (Process I) bs) = Ok (e', outs) /\ inv M bd e' /\
      feed (cv_process I) (h_cv I a) bs = Ok (a', olds) /\
      (forall c, c < w -> length (channel c olds) = total bs /\
         channel c outs = scaled (fun t => fall n (k + t)) (channel c olds)) /\
      (if k + total bs <? n then leaving bd (renew I a a') h n (k + total bs) e' else entering (renew I a a') h n 0 e').
  Proof.
    intros HM HP. induction bs as [|b bs IH]; intros k a h e Hbs He HC Hk.
    - exists e, [], (h_cv I a), []. change (total []) with 0. rewrite Nat.add_0_r.
      split; [reflexivity|]. split; auto. split; [reflexivity|]. split; [intros c Hc; cbn; auto|].
      rewrite (proj2 (Nat.ltb_lt _ _)) by apply HC. destruct a; exact HC.
    - destruct (Hbs b (or_introl eq_refl)) as (m & Hm & Hb).
      destruct (leave_block M bd a h n k e m b HM He HP HC Hm Hb) as (e1 & o & a1 & oa & E & He1 & Ea & Hoa & Eo & HS).
      assert (TT : total (b :: bs) = m + total bs) by now apply (total_cons w Hw).
      assert (CH : forall c, c < w -> nth c o [] = scaled (fun t => fall n (k + t)) (nth c oa [])).
      { intros c Hc. rewrite Eo. now rewrite (scaled_chan (fun t => fall n (k + t)) m oa c). }
      destruct bs as [|b2 bs2].
      + exists e1, [o], a1, [oa]. cbn [map eng_run eng_step feed]. rewrite E, Ea. cbn [bind].
        split; [reflexivity|]. split; auto. split; [reflexivity|].
        rewrite TT. change (total []) with 0. rewrite Nat.add_0_r. split; [|exact HS].
        intros c Hc. unfold channel. cbn [map concat]. rewrite !app_nil_r, !(chan_length w Hw m) by auto. auto.
      + assert (Hk2 : (k + m) + total (removelast (b2 :: bs2)) < n).
        { change (removelast (b :: b2 :: bs2)) with (b :: removelast (b2 :: bs2)) in Hk. rewrite (total_cons w Hw b _ m Hb) in Hk. lia. }
        rewrite (proj2 (Nat.ltb_lt _ _)) in HS by lia.
        assert (Hbs2 : fits w M (b2 :: bs2)) by (intros b' Hb'; apply Hbs; now right).
        destruct (IH (k + m) _ _ e1 Hbs2 He1 HS Hk2) as (e2 & outs & a2 & olds & E2 & He2 & Fa & C2 & S2).
        exists e2, (o :: outs), a2, (oa :: olds).
        set (bs' := b2 :: bs2) in *. cbn [map eng_run eng_step]. rewrite E. cbn [bind]. rewrite E2. cbn [bind].
        split; [reflexivity|]. split; auto. cbn [renew h_cv] in Fa. cbn [feed]. rewrite Ea. cbn [bind]. rewrite Fa. cbn [bind].
        split; [reflexivity|]. split.
        * intros c Hc. destruct (C2 c Hc) as (La & Ec). rewrite !channel_cons, !app_length, !(chan_length w Hw m) by auto. rewrite La, TT.
          split; [reflexivity|]. rewrite CH, Ec by auto. rewrite scaled_app. f_equal.
          rewrite (chan_length w Hw m) by auto. apply scaled_ext; intros t; f_equal; lia.
        * rewrite TT. replace (k + (m + total bs')) with (k + m + total bs') by lia. exact S2.
  Qed.
  Lemma enter_blocks M bd n : 0 < M -> positive bd -> forall bs k a h e, fits w M bs -> inv M bd e -> entering a h n k e ->
    k + total (removelast bs) < n ->
    exists e' outs h' news, eng_run I e (map (Process I) bs) = Ok (e', outs) /\ inv M bd e' /\
      feed (cv_process I) (h_cv I h) bs = Ok (h', news) /\
      (forall c, c < w -> length (channel c news) = total bs /\
         channel c outs = scaled (fun t => rise n (k + t)) (channel c news)) /\
      (if k + total bs <? n then entering a (renew I h h') n (k + total bs) e' else arrived bd (renew I h h') e').
  Proof.
    intros HM HP. induction bs as [|b bs IH]; intros k a h e Hbs He HC Hk.
    - exists e, [], (h_cv I h), []. change (total []) with 0. rewrite Nat.add_0_r.
      split; [reflexivity|]. split; auto. split; [reflexivity|]. split; [intros c Hc; cbn; auto|].
      rewrite (proj2 (Nat.ltb_lt _ _)) by apply HC. destruct h; exact HC.
    - destruct (Hbs b (or_introl eq_refl)) as (m & Hm & Hb).
      destruct (enter_block M bd a h n k e m b HM He HP HC Hm Hb) as (e1 & o & h1 & oh & E & He1 & Eh & Hoh & Eo & HS).
      assert (TT : total (b :: bs) = m + total bs) by now apply (total_cons w Hw).
      assert (CH : forall c, c < w -> nth c o [] = scaled (fun t => rise n (k + t)) (nth c oh [])).
      { intros c Hc. rewrite Eo. now rewrite (scaled_chan (fun t => rise n (k + t)) m oh c). }
      destruct bs as [|b2 bs2].
      + exists e1, [o], h1, [oh]. cbn [map eng_run eng_step feed]. rewrite E, Eh. cbn [bind].
        split; [reflexivity|]. split; auto. split; [reflexivity|].
        rewrite TT. change (total []) with 0. rewrite Nat.add_0_r. split; [|exact HS].
        intros c Hc. unfold channel. cbn [map concat]. rewrite !app_nil_r, !(chan_length w Hw m) by auto. auto.
      + assert (Hk2 : (k + m) + total (removelast (b2 :: bs2)) < n).
        { change (removelast (b :: b2 :: bs2)) with (b :: removelast (b2 :: bs2)) in Hk. rewrite (total_cons w Hw b _ m Hb) in Hk. lia. }
        rewrite (proj2 (Nat.ltb_lt _ _)) in HS by lia.
        assert (Hbs2 : fits w M (b2 :: bs2)) by (intros b' Hb'; apply Hbs; now right).
        destruct (IH (k + m) _ _ e1 Hbs2 He1 HS Hk2) as (e2 & outs & h2 & news & E2 & He2 & Fh & C2 & S2).
        exists e2, (o :: outs), h2, (oh :: news).
        set (bs' := b2 :: bs2) in *. cbn [map eng_run eng_step]. rewrite E. cbn [bind]. rewrite E2. cbn [bind].
        split; [reflexivity|]. split; auto. cbn [renew h_cv] in Fh. cbn [feed]. rewrite Eh. cbn [bind]. rewrite Fh. cbn [bind].
        split; [reflexivity|]. split.
        * intros c Hc. destruct (C2 c Hc) as (La & Ec). rewrite !channel_cons, !app_length, !(chan_length w Hw m) by auto. rewrite La, TT.
          split; [reflexivity|]. rewrite CH, Ec by auto. rewrite scaled_app. f_equal.
          rewrite (chan_length w Hw m) by auto. apply scaled_ext; intros t; f_equal; lia.
        * rewrite TT. replace (k + (m + total bs')) with (k + m + total bs') by lia. exact S2.
  Qed.

  (** ** every fade of every undisturbed history *)
  Definition len_ok (bd : bounds) (s : fade_strategy) (n : nat) : Prop :=
    match s with
    | kCrossfade => (lower_fade_bound bd <= Z.of_nat n <= upper_fade_bound bd)%Z
    | kInOut => Z.of_nat n = in_out_fade_length bd
    end.
  Lemma fade_len_ok bd h : positive bd -> len_ok bd (fst (fade_len I bd h)) (Z.to_nat (snd (fade_len I bd h))).
  Proof.
    intros [H1 H2]. unfold fade_len. destruct (cv_fade I (h_cv I h)); [cbn; lia|]. destruct (_ <=? _)%Z; cbn [fst snd len_ok]; lia.
  Qed.
  Definition phase_ok (s : fade_strategy) (n j k : nat) : Prop :=
    match s with kCrossfade => k = j | kInOut => (j = 0 /\ k < n) \/ n <= k end.
  Definition fprog (bd : bounds) (F : front) : Prop :=
    forall h, f_fade I F = Some h -> exists a n j k, len_ok bd (f_strat I F) n /\ j < n /\ phase_ok (f_strat I F) n j k /\
      fin_fade (f_strat I F) a h n j k F.
  Lemma fprog_intro bd s a h n j k F : fin_fade s a h n j k F -> len_ok bd s n -> j < n -> phase_ok s n j k -> fprog bd F.
  Proof.
    intros (H1 & H2 & H3 & H4 & H5) Hl Hj Hp h' E. rewrite H3. exists a, n, j, k. assert (h' = h) by congruence. subst h'.
    unfold fin_fade. tauto.
  Qed.
  Lemma start_prog bd h F a : positive bd -> f_conv I F = Some a -> sm_target (f_in I F) = false -> sm_target (f_out I F) = true ->
    fprog bd (start I bd h F).
  Proof.
    intros HP H1 H2 H3. pose proof (fade_len_pos bd h HP) as Hn.
    eapply fprog_intro; [eapply start_fin_fade; eauto|now apply fade_len_ok|lia|].
    destruct (fst (fade_len I bd h)); cbn; [left; lia|reflexivity].
  Qed.
  Lemma take_prog bd F h : positive bd -> frest I F -> fprog bd F -> fprog bd (take I bd F h).
  Proof.
    intros HP HR HF. unfold take. destruct (f_conv I F) as [c|] eqn:Ec.
    - destruct (f_fade I F) as [f|] eqn:Ef.
      + destruct (HF f Ef) as (a & n & j & k & Hl & Hj & Hp & H1 & H2 & H3 & H4).
        eapply fprog_intro; eauto. unfold fin_fade. cbn. tauto.
      + destruct (HR Ef). eapply start_prog; eauto.
    - intros h' E. cbn [f_fade] in E. destruct (HF h' E) as (a & n & j & k & _ & _ & _ & H1 & _). congruence.
  Qed.
  Lemma takes_prog bd l : positive bd -> forall F, frest I F -> fprog bd F -> fprog bd (takes I bd l F).
  Proof.
    intros HP. unfold takes. induction l as [|h l IH]; intros F HR HF; auto. cbn [fold_left]. apply IH.
    - now apply take_rest.
    - now apply take_prog.
  Qed.
  Lemma fin_prog bd F h : positive bd -> f_fade I F = Some h -> fprog bd (fin I bd F).
  Proof.
    intros HP Hf. unfold fin. destruct (f_pend I F) as [q|].
    - eapply start_prog; eauto; reflexivity.
    - intros h' E. discriminate.
  Qed.
  Lemma proc_some' h b h' o : proc I (Some h) b = Ok (h', o) -> exists x, h' = Some x.
  Proof. intros H. destruct (proc_some I _ _ _ _ H) as (c & _ & ->). eauto. Qed.
  Lemma one_block_prog bd m b F F' o : positive bd -> one_block I w bd m b F F' o -> fprog bd F -> fprog bd F'.
  Proof.
    intros HP OB HF. destruct OB as [c' o H1 H2 H3|f c' oa f' ob H1 H2 H3 H4 H5 H6|f c' oa H1 H2 H3 H4 H5|f f' ob H1 H2 H3 H4 H5].
    - intros h E. cbn in E. discriminate.
    - destruct (HF f H1) as (a & n & j & k & Hl & Hj & Hp & G1 & _ & _ & G4 & G5). rewrite H2 in *. cbn in Hp. subst k.
      rewrite G1 in H3. destruct (proc_some' _ _ _ _ H3) as (x & ->).
      unfold check. cbn [with_smooth f_in]. unfold sm_smoothing.
      pose proof (vlev_iter _ _ _ m _ G4) as V4. pose proof (vlev_iter _ _ _ m _ G5) as V5. rewrite (proj1 V4).
      destruct (Nat.ltb_spec 0 (n - (j + m))); [|eapply fin_prog; eauto; reflexivity].
      eapply (fprog_intro bd kCrossfade x f' n (j + m) (j + m)); [|exact Hl|lia|reflexivity].
      unfold fin_fade. cbn [with_smooth with_slots f_conv f_fade f_strat f_in f_out]. tauto.
    - destruct (HF f H1) as (a & n & j & k & Hl & Hj & Hp & G1 & _ & _ & G4 & G5). rewrite H2 in *.
      rewrite (proj1 G5) in H3. cbn in Hp. destruct Hp as [[-> Hk]|Hp]; [|lia].
      rewrite G1 in H4. destruct (proc_some' _ _ _ _ H4) as (x & ->).
      unfold check. cbn [with_smooth f_in]. unfold sm_smoothing. rewrite (proj1 G4), (proj2 (Nat.ltb_lt _ _)) by lia.
      pose proof (vlev_iter _ _ _ m _ G5) as V5.
      eapply (fprog_intro bd kInOut x f n 0 (k + m)); [|exact Hl|lia|cbn; lia].
      unfold fin_fade. cbn [with_smooth with_slots f_conv f_fade f_strat f_in f_out]. tauto.
    - destruct (HF f H1) as (a & n & j & k & Hl & Hj & Hp & G1 & _ & _ & G4 & G5). rewrite H2 in *.
      rewrite (proj1 G5) in H3. cbn in Hp.
      unfold check. cbn [with_smooth f_in]. unfold sm_smoothing. pose proof (vlev_iter _ _ _ m _ G4) as V4. rewrite (proj1 V4).
      destruct (Nat.ltb_spec 0 (n - (j + m))); [|eapply fin_prog; eauto; reflexivity].
      eapply (fprog_intro bd kInOut a f' n (j + m) k); [|exact Hl|lia|cbn; lia].
      unfold fin_fade. cbn [with_smooth with_slots f_conv f_fade f_strat f_in f_out]. tauto.
  Qed.
  Lemma settle_none bd e : calm I e -> e_commands I e = [] \/ length (line e) <= 1 -> length (line e) <= 2 ->
    f_fade I (settle I (takes I bd (e_commands I e) (rest I (front_of e)))) = None.
  Proof.
    intros HC H HL.
    destruct (settled_calm I w Hw bd e (rest I (front_of e)) HC eq_refl eq_refl eq_refl HL) as (X & _). exact X.
  Qed.

  Lemma bounds_positive s bd : spec_ok w s -> engine_bounds s = Ok bd -> positive bd.
  Proof.
    intros (_ & _ & R1 & R2 & R3) E. destruct (bounds_ok s R1 R2 R3) as (b & Eb & _ & _ & _ & _ & B1 & B2 & _).
    assert (b = bd) by congruence. subst b. split; [exact B1|apply B2].
  Qed.
  Definition pprog (p : option process_spec) (e : engine) : Prop :=
    match p with Some s => forall bd, engine_bounds s = Ok bd -> fprog bd (front_of e) | None => True end.
  Lemma prog_step p e o e' x : good I w ok p e -> (p <> None -> frest I (front_of e)) -> pprog p e -> legal I w ok (option_map ps_max_block p) [o] ->
    (restarts o -> e_commands I e = [] \/ length (line e) <= 1) -> (restarts o -> length (line e) <= 2) -> eng_step I e o = Ok (e', x) ->
    pprog (last_spec p [o]) e'.
  Proof.
    intros (HT & HC & HF) HR HP HL HU HU2 H.
    destruct o as [s|b| | |l]; cbn [eng_step last_spec legal] in *.
    - destruct (prepare_front I w ok Hw HI p e s) as (b & e1 & news & Eb & E & H1 & F1 & N1 & X1); try tauto.
      rewrite E in H. cbn [bind] in H. injection H as <- <-. intros bd Ebd h Eh. rewrite F1 in Eh.
      rewrite settle_none in Eh by (first [exact HC | exact (HU Logic.I) | exact (HU2 Logic.I)]). discriminate.
    - destruct HL as [(M & m & EM & Hm & Hb) _]. destruct p as [s|]; [|discriminate]. cbn in EM. injection EM as <-.
      destruct HT as (HS & bd & Ebd & He). pose proof HS as (Hch & HM & Hr).
      destruct (process_front I w ok Hw HI _ bd e m b He HM Hm Hb) as (e1 & o & news & E & H1 & Ho & OB & N1 & X1).
      rewrite E in H. cbn [bind] in H. injection H as <- <-. intros bd' Ebd'. assert (bd' = bd) by congruence. subst bd'.
      pose proof (bounds_positive s bd HS Ebd) as HPos.
      eapply one_block_prog; [exact HPos|exact OB|]. apply takes_prog; auto. apply HR. discriminate.
    - destruct p as [s|]; [|now destruct HL]. destruct HT as (HS & bd & Ebd & He).
      destruct (reset_front I w ok Hw HI _ bd e He) as (e1 & news & E & H1 & F1 & N1 & X1).
      rewrite E in H. cbn [bind] in H. injection H as <- <-. intros bd' Ebd' h Eh. rewrite F1 in Eh.
      rewrite settle_none in Eh by (first [exact HC | exact (HU Logic.I) | exact (HU2 Logic.I)]). discriminate.
    - destruct p as [s|]; [|now destruct HL]. destruct HT as (HS & bd & Ebd & He).
      destruct (clear_front I w ok Hw HI _ bd e He) as (e1 & news & E & H1 & F1 & N1 & _).
      rewrite E in H. cbn [bind] in H. injection H as <- <-. cbv zeta in F1. intros bd' Ebd' h Eh. rewrite F1 in Eh. cbn [f_fade] in Eh.
      rewrite settle_none in Eh by (first [exact HC | exact (HU Logic.I) | exact (HU2 Logic.I)]). discriminate.
    - injection H as <- <-. destruct (acts_slots I l e) as (G1 & G2 & G3 & G4 & G5 & G6 & G7 & G8 & G9).
      assert (EF : front_of (acts I l e) = front_of e) by (unfold EngineFront.front_of; congruence). destruct p; [|exact Logic.I]. cbn [pprog]. rewrite EF. exact HP.
  Qed.
  Lemma prog_run : forall l p e e' outs, good I w ok p e -> (p <> None -> frest I (front_of e)) -> pprog p e -> legal I w ok (option_map ps_max_block p) l ->
    undisturbed I e l -> eng_run I e l = Ok (e', outs) -> pprog (last_spec p l) e'.
  Proof.
    induction l as [|o l IH]; intros p e e' outs HG HR HP HL HU H; cbn [eng_run] in H.
    - injection H as <- <-. exact HP.
    - destruct (eng_step I e o) as [[e1 x1]| |] eqn:E; cbn [bind] in H; try discriminate.
      destruct (eng_run I e1 l) as [[e2 x2]| |] eqn:E0; cbn [bind] in H; try discriminate.
      injection H as <- <-. apply legal_cons in HL. destruct HL as [L1 L2].
      assert (U1 : restarts o -> e_commands I e = [] \/ length (line e) <= 1).
      { intros R. destruct (HU [] o l e [] eq_refl R eq_refl) as [?|[? _]]; auto. }
      assert (U2 : restarts o -> length (line e) <= 2).
      { intros R. destruct (HU [] o l e [] eq_refl R eq_refl) as [?|[_ ?]]; lia. }
      rewrite last_spec_cons. eapply IH; [| | | | |exact E0].
      + eapply good_step; eauto.
      + intros HP'. eapply rest_step; eauto.
      + eapply prog_step; eauto.
      + now rewrite <- last_spec_prepared.
      + intros l1 o' l2 e3 outs3 El R E3. eapply (HU (o :: l1) o' l2 e3); eauto; [now rewrite El|].
        cbn [eng_run]. rewrite E. cbn [bind]. rewrite E3. reflexivity.
  Qed.
End Levels.

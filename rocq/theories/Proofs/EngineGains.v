(** * A whole fade, in any arithmetic: the levels are those [getNextValue] returns *)
From Coq Require Import ZArith.
From Verif.Model Require Import Base Arith Juce SmoothedValue Convolver ConvolutionEngine.
From Verif.Spec Require Import Transform Signal Engine.
From Verif.Proofs Require Import Lists Blocks Streams SmoothProof EngineProof EngineInv EngineFront EngineCalm EngineRun EngineFade.

Section Gains.
  Context {A : arith} (I : conv_if A) (w : nat) (ok : cv I -> Prop).
  Hypothesis Hw : 0 < w.
  Hypothesis HI : accepting I w ok.

  (** During the fade and in the block in which it ends, the sounds are blended; after that block only the new one is
      heard. *)
  Lemma cross_gains M bd e a h n bs :
    0 < M -> inv I w ok M bd e -> at_rest e -> no_loads e -> e_conv I e = Some a -> e_commands I e = [h] ->
    fade_of bd (cv_samples I (h_cv I h)) (cv_fade I (h_cv I h)) = Ok (kCrossfade, n) -> (0 < n)%Z -> fits w M bs ->
    exists e' outs a' h' olds news, eng_run I e (map (Process I) bs) = Ok (e', outs) /\
      feed (cv_process I) (h_cv I a) bs = Ok (a', olds) /\ feed (cv_process I) (h_cv I h) bs = Ok (h', news) /\
      forall c, c < w -> length (channel c olds) = total bs /\ length (channel c news) = total bs /\
        forall t, t < total bs ->
          nth t (channel c outs) s0 = sadd (smul (nth t (channel c olds) s0) (gain (v_out I n e) t)) (smul (nth t (channel c news) s0) (gain (v_in I n e) t)) \/
          (Z.to_nat n <= t /\ nth t (channel c outs) s0 = nth t (channel c news) s0).
  Proof.
    intros HM He HR HN Ha Hc Hf Hn Hbs. set (N := Z.to_nat n) in *. assert (HN0 : 0 < N) by lia.
    destruct (cut_at N HN0 bs) as (bs1 & bs2 & Ebs & H1 & H2). rewrite Ebs in Hbs. destruct (fits_app w M bs1 bs2 Hbs) as [Hb1 Hb2].
    pose proof (start_fading I w ok M bd e a h _ n He HR Ha Hc Hf) as HF.
    destruct (cross_run I w ok Hw HI M bd N (v_in I n e) (v_out I n e) HM (v_in_count I w Hw n e HR Hn) (v_out_count I w Hw n e HR Hn) bs1 0 a h None e Hb1 He HF H1)
      as (e1 & outs1 & a1 & h1 & p1 & olds1 & news1 & E1 & I1 & Fa1 & Fh1 & C1 & S1 & NL1).
    destruct (NL1 HN) as (HN1 & -> & Hc1). cbn [Nat.add] in S1, C1.
    assert (G1 : forall c, c < w -> forall t, t < total bs1 -> nth t (channel c outs1) s0 =
      sadd (smul (nth t (channel c olds1) s0) (gain (v_out I n e) t)) (smul (nth t (channel c news1) s0) (gain (v_in I n e) t))).
    { intros c Hcw t Ht. destruct (C1 c Hcw) as (_ & L2 & ->). unfold blend. rewrite tab_nth; [reflexivity|]. rewrite L2. exact Ht. }
    destruct bs2 as [|b2 bs2'].
    - rewrite app_nil_r in Ebs. subst bs1. exists e1, outs1, a1, h1, olds1, news1. split; auto. split; auto. split; auto.
      intros c Hcw. destruct (C1 c Hcw) as (X1 & X2 & _). auto.
    - set (bs2 := b2 :: bs2') in *. assert (HT : N <= total bs1) by (apply H2; discriminate).
      rewrite (proj2 (Nat.ltb_ge _ _)) in S1 by auto.
      assert (Hc1' : e_commands I e1 = []) by (apply Hc1; intros ->; cbn in HT; lia).
      destruct (faded_alone I w ok M bd _ e1 I1 S1 Hc1') as [AL1 EC1].
      destruct (alone_run I w ok Hw HI M bd HM bs2 e1 Hb2 I1 HN1 AL1) as (e2 & outs2 & E2 & I2 & HN2 & AL2 & EI & EO & P2).
      rewrite EC1 in P2. destruct P2 as (h2 & Fh2 & EC2). cbn [renew h_id h_cv] in Fh2, EC2.
      assert (Ha1 : ok a1).
      { destruct (feed_ok I w ok Hw HI M bs1 (h_cv I a)) as (x & y & Fx & Hx & _); auto; [|congruence]. destruct He as [[] _]. apply (i_conv a Ha). }
      assert (Hh1 : ok h1).
      { destruct (feed_ok I w ok Hw HI M bs1 (h_cv I h)) as (x & y & Fx & Hx & _); auto; [|congruence]. destruct He as [_ [Q _]]. rewrite Hc in Q. now inversion Q. }
      destruct (feed_ok I w ok Hw HI M bs2 a1 Ha1 Hb2) as (a2 & olds2 & Fa2 & _ & La2).
      destruct (feed_ok I w ok Hw HI M bs2 h1 Hh1 Hb2) as (h2' & outs2' & Fh2' & _ & Lh2). rewrite Fh2 in Fh2'. injection Fh2' as <- <-.
      exists e2, (outs1 ++ outs2), a2, h2, (olds1 ++ olds2), (news1 ++ outs2).
      rewrite Ebs, map_app, run_app, E1. cbn [bind]. rewrite E2. cbn [bind]. split; [reflexivity|].
      split; [eapply feed_app; eauto|]. split; [eapply feed_app; eauto|].
      intros c Hcw. destruct (C1 c Hcw) as (X1 & X2 & X3).
      assert (X4 : length (channel c outs1) = total bs1) by (rewrite X3; unfold blend; now rewrite tab_length).
      rewrite !channel_app, !app_length, (total_app), X1, X2, La2, Lh2 by auto. split; [reflexivity|]. split; [reflexivity|].
      intros t Ht. destruct (Nat.lt_ge_cases t (total bs1)) as [Ht1|Ht1].
      + left. rewrite !app_nth1 by (rewrite ?X1, ?X2, ?X4; exact Ht1). now apply G1.
      + right. split; [lia|]. rewrite !app_nth2 by (rewrite ?X2, ?X4; exact Ht1). rewrite X2, X4. reflexivity.
  Qed.

  Lemma inout_gains M bd e a h n bs1 bs2 :
    0 < M -> inv I w ok M bd e -> at_rest e -> no_loads e -> e_conv I e = Some a -> e_commands I e = [h] ->
    fade_of bd (cv_samples I (h_cv I h)) (cv_fade I (h_cv I h)) = Ok (kInOut, n) -> (0 < n)%Z -> fits w M bs1 -> fits w M bs2 ->
    total (removelast bs1) < Z.to_nat n -> (bs2 <> [] -> Z.to_nat n <= total bs1) ->
    exists e' outs1 outs2 a' h' olds news, eng_run I e (map (Process I) (bs1 ++ bs2)) = Ok (e', outs1 ++ outs2) /\
      feed (cv_process I) (h_cv I a) bs1 = Ok (a', olds) /\ feed (cv_process I) (h_cv I h) bs2 = Ok (h', news) /\
      forall c, c < w -> length (channel c olds) = total bs1 /\ length (channel c news) = total bs2 /\
        length (channel c outs1) = total bs1 /\ length (channel c outs2) = total bs2 /\
        (forall t, t < total bs1 -> nth t (channel c outs1) s0 = smul (nth t (channel c olds) s0) (gain (v_out I n e) t)) /\
        (forall t, t < total bs2 ->
           nth t (channel c outs2) s0 = smul (nth t (channel c news) s0) (gain (v_in I n e) t) \/
           (Z.to_nat n <= t /\ nth t (channel c outs2) s0 = nth t (channel c news) s0)).
  Proof.
    intros HM He HR HN Ha Hc Hf Hn Hb1 Hb2 H1 H2. set (N := Z.to_nat n) in *. assert (HN0 : 0 < N) by lia.
    pose proof (start_fading I w ok M bd e a h _ n He HR Ha Hc Hf) as HF.
    pose proof (v_in_count I w Hw n e HR Hn) as Ci. pose proof (v_out_count I w Hw n e HR Hn) as Co.
    destruct (out_run I w ok Hw HI M bd N (v_in I n e) (v_out I n e) HM ltac:(rewrite Ci; exact HN0) Co bs1 0 a h None e Hb1 He HF H1)
      as (e1 & outs1 & a1 & p1 & olds1 & E1 & I1 & Fa1 & C1 & S1 & NL1).
    destruct (NL1 HN) as (HN1 & -> & Hc1). cbn [Nat.add] in S1, C1.
    assert (K1 : forall c, c < w -> length (channel c outs1) = total bs1).
    { intros c Hcw. destruct (C1 c Hcw) as (X1 & ->). unfold scaled. now rewrite tab_length. }
    assert (G1 : forall c, c < w -> forall t, t < total bs1 -> nth t (channel c outs1) s0 = smul (nth t (channel c olds1) s0) (gain (v_out I n e) t)).
    { intros c Hcw t Ht. destruct (C1 c Hcw) as (X1 & ->). unfold scaled. rewrite tab_nth; [reflexivity|]. rewrite X1. exact Ht. }
    rewrite map_app, run_app, E1. cbn [bind].
    destruct (cut_at N HN0 bs2) as (bs3 & bs4 & Ebs & H3 & H4). rewrite Ebs in Hb2. destruct (fits_app w M bs3 bs4 Hb2) as [Hb3 Hb4].
    assert (D : bs2 = [] \/ bs2 <> []) by (destruct bs2; [left|right]; [reflexivity|discriminate]).
    destruct D as [D|D].
    { rewrite D. exists e1, outs1, [], a1, (h_cv I h), olds1, []. cbn [map eng_run bind feed]. split; [reflexivity|]. split; auto. split; auto.
      intros c Hcw. destruct (C1 c Hcw). repeat (split; auto). intros t Ht. cbn in Ht. lia. }
    specialize (H2 D).
    destruct (in_run I w ok Hw HI M bd N (v_in I n e) (sm_iter (total bs1) (v_out I n e)) HM Ci ltac:(rewrite sm_iter_count, Co; fold N; lia) bs3 0 (renew I a a1) h None e1 Hb3 I1 S1 H3)
      as (e2 & outs2 & h2 & p2 & news2 & E2 & I2 & Fh2 & C2 & S2 & NL2).
    destruct (NL2 HN1) as (HN2 & -> & Hc2). cbn [Nat.add] in S2, C2.
    assert (K2 : forall c, c < w -> length (channel c outs2) = total bs3).
    { intros c Hcw. destruct (C2 c Hcw) as (X1 & ->). unfold scaled. now rewrite tab_length. }
    assert (G2 : forall c, c < w -> forall t, t < total bs3 -> nth t (channel c outs2) s0 = smul (nth t (channel c news2) s0) (gain (v_in I n e) t)).
    { intros c Hcw t Ht. destruct (C2 c Hcw) as (X1 & ->). unfold scaled. rewrite tab_nth; [reflexivity|]. rewrite X1. exact Ht. }
    destruct bs4 as [|b4 bs4'].
    - rewrite app_nil_r in Ebs. subst bs3. exists e2, outs1, outs2, a1, h2, olds1, news2. rewrite E2. cbn [bind]. split; [reflexivity|].
      split; auto. split; auto. intros c Hcw. destruct (C1 c Hcw) as (X1 & _). destruct (C2 c Hcw) as (X2 & _). repeat (split; auto).
    - set (bs4 := b4 :: bs4') in *. assert (HT : N <= total bs3) by (apply H4; discriminate).
      rewrite (proj2 (Nat.ltb_ge _ _)) in S2 by auto.
      assert (Hc2' : e_commands I e2 = []) by (apply Hc2; intros ->; cbn in HT; lia).
      destruct (faded_alone I w ok M bd _ e2 I2 S2 Hc2') as [AL2 EC2].
      destruct (alone_run I w ok Hw HI M bd HM bs4 e2 Hb4 I2 HN2 AL2) as (e3 & outs3 & E3 & I3 & HN3 & AL3 & EI & EO & P3).
      rewrite EC2 in P3. destruct P3 as (h3 & Fh3 & EC3). cbn [renew h_id h_cv] in Fh3, EC3.
      assert (Hh2 : ok h2).
      { destruct (feed_ok I w ok Hw HI M bs3 (h_cv I h)) as (x & y & Fx & Hx & _); auto; [|congruence]. destruct He as [_ [Q _]]. rewrite Hc in Q. now inversion Q. }
      destruct (feed_ok I w ok Hw HI M bs4 h2 Hh2 Hb4) as (h3' & outs3' & Fh3' & _ & Lh3). rewrite Fh3 in Fh3'. injection Fh3' as <- <-.
      exists e3, outs1, (outs2 ++ outs3), a1, h3, olds1, (news2 ++ outs3).
      rewrite Ebs, map_app, run_app, E2. cbn [bind]. rewrite E3. cbn [bind]. split; [reflexivity|].
      split; auto. split; [eapply feed_app; eauto|].
      intros c Hcw. destruct (C1 c Hcw) as (X1 & _). destruct (C2 c Hcw) as (X2 & _).
      rewrite !channel_app, !app_length, total_app, X2, Lh3, (K2 c) by auto. repeat (split; auto).
      intros t Ht. destruct (Nat.lt_ge_cases t (total bs3)) as [Ht1|Ht1].
      + left. rewrite !app_nth1 by (rewrite ?X2, ?(K2 c) by auto; exact Ht1). now apply G2.
      + right. split; [lia|]. rewrite !app_nth2 by (rewrite ?X2, ?(K2 c) by auto; exact Ht1). rewrite X2, (K2 c) by auto. reflexivity.
  Qed.
End Gains.

(** * C76, C77: the engine is causal; how the sound is cut into blocks *)
From Coq Require Import Reals ZArith Lia.
From Verif.Model Require Import Base Arith ArithReal ArithMod Juce SmoothedValue UniformPartitionedConvolver TimeDistributedNUPC Convolver ConvolutionEngine.
From Verif.Spec Require Import Transform RealFFT Signal Routing Engine Memory.
From Verif.Proofs Require Import Lists ComplexAlg Blocks Streams RealFFTProof EngineProof EngineInv EngineFront EngineRun EngineFade EngineOrigin.
From Verif.Props Require Import ConvolverProps EngineProps FadeProps SwitchProps WholeProps TogetherProps.
Open Scope nat_scope.

(** ** convolvers that were used before *)
Section Used.
  Context {A : arith} (L : arith_laws A) (R : rfft A) (HR : rfft_ok R) (w : nat) (Hw : 0 < w).
  Lemma used_feed c : used R w c -> exists n h inputs outputs past outs0,
    blocks_of w past /\ length outs0 = length past /\ (forall ch, ch < w -> length (channel ch outs0) = total past) /\
    (forall q, q < n -> nth q inputs 0 < w) /\
    forall bs, blocks_of w bs -> exists c' outs, feed (conv_process R) c bs = Ok (c', outs) /\ routed w n h inputs outputs (past ++ bs) (outs0 ++ outs).
  Proof.
    intros (m & ir & M & spec & new & hist & cur & s1 & o1 & o2 & HW & Hh & Hc & E1 & E2).
    assert (X : forall bs, blocks_of w bs -> exists c' outs, feed (conv_process R) c bs = Ok (c', outs) /\
      routed w (length ir) (fun c => nth c ir []) (cs_in spec) (cs_out spec) (cur ++ bs) (o2 ++ outs)).
    { intros bs Hbs. destruct (well_made_routed L R HR w m ir M spec new HW (hist ++ [cur ++ bs])) as (s' & os & E & HF).
      { intros x Hx. apply in_app_iff in Hx as [Hx|[<-|[]]]; [now apply Hh|]. intros b Hb. apply in_app_iff in Hb as [Hb|Hb]; auto. }
      rewrite feed_sessions_app, E1 in E. cbn [bind feed_sessions] in E. rewrite feed_split, E2 in E. cbn [bind] in E.
      destruct (feed (conv_process R) c bs) as [[c' o3]| |]; cbn [bind] in E; try discriminate. injection E as _ <-.
      exists c', o3. split; auto. apply Forall2_app_inv_l in HF as (p & q & HFp & HFq & Epq).
      inversion HFq as [|? y ? q1 Hy HFq1]; subst. inversion HFq1; subst. apply app_inj_tail in Epq as [_ <-]. exact Hy. }
    exists (length ir), (fun c => nth c ir []), (cs_in spec), (cs_out spec), cur, o2. split; auto.
    destruct (X []) as (c0 & x0 & F0 & R0); [intros ? []|]. cbn [feed] in F0. injection F0 as _ <-. rewrite !app_nil_r in R0.
    destruct R0 as (L0 & S0 & C0). split; auto. split; [|split; [|exact X]].
    - intros ch Hch. rewrite C0 by exact Hch. unfold mixed. rewrite tab_length. now apply (channel_total w).
    - intros q Hq. destruct HW as (_ & _ & _ & _ & _ & _ & G1 & G2 & _). apply G2.
      replace (nth q (cs_in spec) 0) with (nth q (firstn (length ir) (cs_in spec)) 0).
      + apply nth_In. rewrite firstn_length. lia.
      + rewrite nth_firstn'. destruct (Nat.ltb_spec q (length ir)); auto. lia.
  Qed.

  (** The same samples in other blocks: the same sound. *)
  Lemma used_cuts c bs bs' c1 o1 c2 o2 : used R w c -> blocks_of w bs -> blocks_of w bs' -> (forall i, i < w -> channel i bs = channel i bs') ->
    feed (conv_process R) c bs = Ok (c1, o1) -> feed (conv_process R) c bs' = Ok (c2, o2) -> forall o, o < w -> channel o o1 = channel o o2.
  Proof.
    intros HU Hb Hb' E F1 F2 o Ho. destruct (used_feed c HU) as (n & h & ins & outs & past & outs0 & Hp & _ & LC & Hin & X).
    destruct (X bs Hb) as (c3 & o3 & G1 & (_ & _ & R1)). destruct (X bs' Hb') as (c4 & o4 & G2 & (_ & _ & R2)).
    rewrite F1 in G1. injection G1 as <- <-. rewrite F2 in G2. injection G2 as <- <-.
    specialize (R1 o Ho). specialize (R2 o Ho). rewrite channel_app in R1, R2. apply (app_inv_head (channel o outs0)). rewrite R1, R2.
    unfold mixed. rewrite !channel_app, E by exact Ho. apply tab_ext. intros t _. apply ssum_ext. intros q Hq. rewrite !channel_app, (E (nth q ins 0)) by now apply Hin. reflexivity.
  Qed.

  (** Two blocks that agree in their first [n] samples: what comes out agrees in the first [n] samples. *)
  Lemma used_causal c m n x y c1 ox c2 oy : used R w c -> block_of w m x -> block_of w m y ->
    (forall i, i < w -> firstn n (nth i x []) = firstn n (nth i y [])) ->
    conv_process R c x = Ok (c1, ox) -> conv_process R c y = Ok (c2, oy) -> forall o, o < w -> firstn n (nth o ox []) = firstn n (nth o oy []).
  Proof.
    intros HU Hx Hy E F1 F2 o Ho. destruct (used_feed c HU) as (k & h & ins & outs & past & outs0 & Hp & _ & LC & Hin & X).
    assert (B1 : blocks_of w [x]) by (intros b [<-|[]]; eauto). assert (B2 : blocks_of w [y]) by (intros b [<-|[]]; eauto).
    destruct (X [x] B1) as (c3 & o3 & G1 & (_ & _ & R1)). destruct (X [y] B2) as (c4 & o4 & G2 & (_ & _ & R2)).
    cbn [feed] in G1, G2. rewrite F1 in G1. rewrite F2 in G2. cbn [bind] in G1, G2. injection G1 as <- <-. injection G2 as <- <-.
    specialize (R1 o Ho). specialize (R2 o Ho). rewrite channel_app in R1, R2.
    assert (One : forall b, channel o [b] = nth o b ([] : list (sample A))) by (intros b; unfold channel; cbn [map concat]; apply app_nil_r).
    rewrite One in R1, R2.
    assert (T : firstn (total past + n) (channel o outs0 ++ nth o ox []) = firstn (total past + n) (channel o outs0 ++ nth o oy [])).
    { rewrite R1, R2. unfold mixed. rewrite !tab_firstn.
      assert (LL : forall i b, i < w -> block_of w m b -> length (channel i (past ++ [b])) = total past + m).
      { intros i b Hi [Hb1 Hb2]. rewrite channel_app, app_length, (channel_total w i past Hi Hp). f_equal. unfold channel. cbn [map concat]. rewrite app_nil_r. apply Hb2, nth_In. lia. }
      rewrite (LL o x), (LL o y) by auto. apply tab_ext. intros t Ht. apply ssum_ext. intros q Hq. destruct (_ =? o); auto.
      pose proof (Hin q Hq) as Hqw. unfold convolve. rewrite !tab_nth by (rewrite LL by auto; lia). apply conv_at_ext. intros i Hi.
      rewrite !channel_app. unfold channel at 2 4. cbn [map concat]. rewrite !app_nil_r.
      destruct (Nat.lt_ge_cases i (length (channel (nth q ins 0) past))) as [H1|H1]; [rewrite !app_nth1 by exact H1; reflexivity|].
      rewrite !app_nth2 by exact H1. rewrite (channel_total w _ past Hqw Hp) in *.
      assert (HT : forall l : list (sample A), nth (i - total past) l s0 = nth (i - total past) (firstn n l) s0).
      { intros l. rewrite nth_firstn'. destruct (Nat.ltb_spec (i - total past) n); auto. lia. }
      rewrite (HT (nth (nth q ins 0) x [])), (HT (nth (nth q ins 0) y [])), E; auto. }
    rewrite !firstn_app, (LC o Ho), (firstn_all2 (channel o outs0)) in T by (rewrite LC by exact Ho; lia).
    replace (total past + n - total past) with n in T by lia. now apply app_inv_head in T.
  Qed.
End Used.

(** ** C76 *)
(** the two blocks have the same shape and agree in the first [n] samples of every channel *)
Definition same_start {A : arith} (n : nat) (x y : audio A) : Prop :=
  length x = length y /\ forall c, length (nth c x []) = length (nth c y []) /\ firstn n (nth c x []) = firstn n (nth c y []).

Section Causal.
  Context {A : arith} (I : conv_if A) (w : nat) (ok : cv I -> Prop) (Hw : 0 < w) (HI : accepting I w ok).
  Hypothesis HC : forall c m n x y c1 ox c2 oy, ok c -> block_of w m x -> block_of w m y ->
    (forall i, i < w -> firstn n (nth i x []) = firstn n (nth i y [])) ->
    cv_process I c x = Ok (c1, ox) -> cv_process I c y = Ok (c2, oy) -> forall o, o < w -> firstn n (nth o ox []) = firstn n (nth o oy []).
  Lemma proc_causal o m n x y c1 ox c2 oy : (forall h, o = Some h -> ok (h_cv I h)) -> block_of w m x -> block_of w m y ->
    (forall i, i < w -> firstn n (nth i x []) = firstn n (nth i y [])) ->
    proc I o x = Ok (c1, ox) -> proc I o y = Ok (c2, oy) -> forall q, q < w -> firstn n (nth q ox []) = firstn n (nth q oy []).
  Proof.
    intros Hok Hx Hy E P1 P2 q Hq. destruct o as [h|]; cbn [proc] in *.
    - destruct (cv_process I (h_cv I h) x) as [[a1 b1]| |] eqn:E1; cbn [bind] in P1; try discriminate. injection P1 as _ <-.
      destruct (cv_process I (h_cv I h) y) as [[a2 b2]| |] eqn:E2; cbn [bind] in P2; try discriminate. injection P2 as _ <-.
      exact (HC (h_cv I h) m n x y a1 b1 a2 b2 (Hok h eq_refl) Hx Hy E E1 E2 q Hq).
    - injection P1 as _ <-. injection P2 as _ <-. auto.
  Qed.
  Lemma starts (x y : audio A) m n : block_of w m x -> block_of w m y -> (forall q, q < w -> firstn n (nth q x []) = firstn n (nth q y [])) ->
    same_start n x y.
  Proof.
    intros [X1 X2] [Y1 Y2] H. split; [congruence|]. intros c. destruct (Nat.lt_ge_cases c w) as [Lc|Lc].
    - split; [rewrite X2, Y2; auto; apply nth_In; lia|]. now apply H.
    - rewrite !nth_overflow by lia. auto.
  Qed.
  Lemma at_start (x y : audio A) m n : block_of w m x -> block_of w m y -> (forall q, q < w -> firstn n (nth q x []) = firstn n (nth q y [])) ->
    forall c i, c < w -> i < n -> at_ x c i = at_ y c i.
  Proof.
    intros _ _ H c i Hc Hi. unfold at_. specialize (H c Hc).
    assert (HT : forall l : list (sample A), nth i l s0 = nth i (firstn n l) s0).
    { intros l. rewrite nth_firstn'. destruct (Nat.ltb_spec i n); auto. lia. }
    rewrite (HT (nth c x [])), (HT (nth c y [])). congruence.
  Qed.
  Lemma mk_start m n f g : (forall c i, c < w -> i < m -> i < n -> f c i = g c i) -> forall q, q < w ->
    firstn n (nth q (mk w m f : audio A) []) = firstn n (nth q (mk w m g) []).
  Proof.
    intros H q Hq. unfold mk. rewrite !tab_nth by exact Hq. rewrite !tab_firstn. apply tab_ext. intros i Hi. apply H; lia.
  Qed.

  Lemma process_causal M b e m n x y : inv I w ok M b e -> 0 < M -> m <= M -> block_of w m x -> block_of w m y ->
    (forall i, i < w -> firstn n (nth i x []) = firstn n (nth i y [])) ->
    exists e1 ox e2 oy, eng_process I e x = Ok (e1, ox) /\ eng_process I e y = Ok (e2, oy) /\ same_start n ox oy.
  Proof.
    intros He HM Hm Hx Hy E.
    destruct (process_front I w ok Hw HI M b e m x He HM Hm Hx) as (e1 & ox & n1 & P1 & _ & B1 & O1 & _).
    destruct (process_front I w ok Hw HI M b e m y He HM Hm Hy) as (e2 & oy & n2 & P2 & _ & B2 & O2 & _).
    exists e1, ox, e2, oy. split; auto. split; auto. apply (starts ox oy m n B1 B2).
    destruct (service_front I w ok Hw M b e He) as (es & ns & _ & Is & Fs & _). rewrite <- Fs in O1, O2.
    pose proof Is as [Ss _]. pose proof (i_conv _ _ _ _ _ _ Ss) as Kc. pose proof (i_fade _ _ _ _ _ _ Ss) as Kf.
    assert (Kc' : forall h, f_conv I (front_of I es) = Some h -> ok (h_cv I h)) by exact Kc.
    assert (Kf' : forall h, f_fade I (front_of I es) = Some h -> ok (h_cv I h)) by exact Kf.
    clear - O1 O2 Hx Hy E HC Hw Kc' Kf'. intros q Hq. revert O1 O2 Kc' Kf'. generalize (front_of I es) as F, (front_of I e1) as F1, (front_of I e2) as F2. intros F F1 F2 O1 O2 Kc Kf.
    inversion O1; inversion O2; subst; try congruence; try lia.
    all: repeat match goal with H : f_fade I _ = Some ?a, H' : f_fade I _ = Some ?b |- _ => assert (a = b) by congruence; subst b; clear H' end.
    - eapply (proc_causal (f_conv I F) m n x y); eauto.
    - apply mk_start; auto. intros c i Hc Him Hin. f_equal; f_equal.
      + eapply at_start with (m := m) (n := n); eauto. intros p Hp. eapply (proc_causal (f_conv I F) m n x y); eauto.
      + eapply at_start with (m := m) (n := n); eauto. intros p Hp. eapply (proc_causal (Some f) m n x y); eauto. intros h Eh. injection Eh as <-. auto.
    - apply mk_start; auto. intros c i Hc Him Hin. f_equal.
      eapply at_start with (m := m) (n := n); eauto. intros p Hp. eapply (proc_causal (f_conv I F) m n x y); eauto.
    - apply mk_start; auto. intros c i Hc Him Hin. f_equal.
      eapply at_start with (m := m) (n := n); eauto. intros p Hp. eapply (proc_causal (Some f) m n x y); eauto. intros h Eh. injection Eh as <-. auto.
  Qed.
End Causal.

Lemma legal_tracked {A : arith} (I : conv_if A) w ok : 0 < w -> accepting I w ok -> forall l1 p e0 e1 outs l2, tracked I w ok p e0 ->
  legal I w ok (option_map ps_max_block p) (l1 ++ l2) -> eng_run I e0 l1 = Ok (e1, outs) ->
  tracked I w ok (last_spec p l1) e1 /\ legal I w ok (option_map ps_max_block (last_spec p l1)) l2.
Proof.
  intros Hw HI. induction l1 as [|o l1 IH]; intros p e0 e1 outs l2 HT Hl E.
  - cbn in E. injection E as <- _. split; [exact HT|exact Hl].
  - change ((o :: l1) ++ l2) with (o :: (l1 ++ l2)) in Hl. apply legal_cons in Hl as [Ho Hl].
    cbn [eng_run] in E. destruct (eng_step I e0 o) as [[e2 x]| |] eqn:E1; cbn [bind] in E; try discriminate.
    destruct (eng_run I e2 l1) as [[e3 xs]| |] eqn:E2; cbn [bind] in E; try discriminate. injection E as <- _.
    rewrite last_spec_cons. rewrite (last_spec_prepared I p o) in Hl. apply (IH _ e2 e3 xs); auto.
    exact (tracked_step I w ok Hw HI p e0 o e2 x HT Ho E1).
Qed.

(** The engine is causal.  In two histories with the same past [l] and the same other threads, the blocks that come next agree in
    their first [n] samples; what follows may differ in any way.  Then everything that comes out before is the same, and what
    comes out for these blocks agrees in the first [n] samples of every channel. *)
Theorem C76_engine_causal : forall (A : arith), arith_laws A -> forall R : rfft A, rfft_ok R ->
  let I := convolver_if R in
  forall w, 0 < w -> forall env l x y rest rest' n, Forall (delivers_ok I (used R w)) env ->
  legal I w (used R w) None (l ++ Process I x :: rest) -> legal I w (used R w) None (l ++ Process I y :: rest') -> same_start n x y ->
  exists e e' past ox oy future future',
    eng_run I (eng_new I env) (l ++ Process I x :: rest) = Ok (e, past ++ ox :: future) /\
    eng_run I (eng_new I env) (l ++ Process I y :: rest') = Ok (e', past ++ oy :: future') /\
    length past = length (blocks_in I l) /\ same_start n ox oy.
Proof.
  intros A L R HR I w Hw env l x y rest rest' n He H1 H2 [SL SC].
  assert (HI := C46_convolvers_are_accepting A L R HR w : accepting I w (used R w)).
  destruct (C46_never_fails A I w (used R w) Hw HI env _ He H1) as (e & outs & E & _).
  destruct (C46_never_fails A I w (used R w) Hw HI env _ He H2) as (e' & outs' & E' & _).
  rewrite EngineRun.run_app in E, E'. destruct (eng_run I (eng_new I env) l) as [[ep past]| |] eqn:EP; cbn [bind] in E; try discriminate.
  assert (HT0 : tracked I w (used R w) None (eng_new I env)) by exact (proj1 (good_new I w (used R w) env He)).
  destruct (legal_tracked I w (used R w) Hw HI l None (eng_new I env) ep past _ HT0 H1 EP) as (HT & HL).
  destruct (legal_tracked I w (used R w) Hw HI l None (eng_new I env) ep past _ HT0 H2 EP) as (_ & HL').
  cbn [legal] in HL, HL'. destruct HL as [(M & m & EM & Hm & Bx) _]. destruct HL' as [(M' & m' & EM' & Hm' & By) _].
  destruct (last_spec None l) as [s|] eqn:Es; [|discriminate]. cbn [option_map] in EM. injection EM as <-.
  destruct HT as (Hsp & bd & Eb & Hi).
  assert (m' = m). { destruct Bx as [X1 X2], By as [Y1 Y2]. rewrite <- (X2 (nth 0 x [])), <- (Y2 (nth 0 y [])) by (apply nth_In; lia). symmetry. apply SC. }
  subst m'.
  destruct (process_causal I w (used R w) Hw HI (fun c => used_causal L R HR w Hw c) (ps_max_block s) bd ep m n x y Hi (proj1 (proj2 Hsp)) Hm Bx By)
    as (e1 & ox & e2 & oy & P1 & P2 & SS); [intros i _; apply SC|].
  cbn [eng_run eng_step bind] in E, E'. rewrite P1 in E. rewrite P2 in E'. cbn [bind] in E, E'.
  destruct (eng_run I e1 rest) as [[e3 f3]| |] eqn:E3; cbn [bind] in E; try discriminate.
  destruct (eng_run I e2 rest') as [[e4 f4]| |] eqn:E4; cbn [bind] in E'; try discriminate.
  injection E as <- <-. injection E' as <- <-. cbn [app] in *.
  exists e3, e4, past, ox, oy, f3, f4. rewrite !EngineRun.run_app, EP. cbn [bind eng_run eng_step]. rewrite P1, P2. cbn [bind]. rewrite E3, E4.
  split; [reflexivity|]. split; [reflexivity|]. split; [|exact SS].
  assert (HLl : legal I w (used R w) None l).
  { clear - H1. revert H1. generalize (None : option nat). induction l as [|o l IH]; intros p H; [exact Logic.I|].
    change ((o :: l) ++ Process I x :: rest) with (o :: (l ++ Process I x :: rest)) in H. apply legal_cons in H as [Ho H]. apply legal_cons. split; auto. }
  destruct (C46_never_fails A I w (used R w) Hw HI env l He HLl) as (e5 & o5 & E5 & F5). rewrite EP in E5. injection E5 as _ <-. clear - F5. induction F5; cbn [length]; congruence.
Qed.
Print Assumptions C76_engine_causal.

(** ** C77 *)
Section Cuts.
  Context {A : arith} (L : arith_laws A) (HV : inv_law A) (R : rfft A) (HR : rfft_ok R) (w : nat) (Hw : 0 < w).
  Notation I := (convolver_if R).
  Lemma plays_cuts M e c (bs bs' : list (audio A)) : (forall h, c = Some h -> used R w (h_cv I h)) -> plays (I := I) w M e c ->
    fits w M bs -> fits w M bs' -> (forall i, i < w -> channel i bs = channel i bs') ->
    exists e1 outs e2 outs', eng_run I e (map (Process I) bs) = Ok (e1, outs) /\ eng_run I e (map (Process I) bs') = Ok (e2, outs') /\
      forall o, o < w -> channel o outs = channel o outs'.
  Proof.
    intros HU HP Hf Hf' E. destruct (HP bs Hf) as (e1 & outs & R1 & G1). destruct (HP bs' Hf') as (e2 & outs' & R2 & G2).
    exists e1, outs, e2, outs'. split; auto. split; auto. destruct c as [h|].
    - destruct G1 as (c1 & G1). destruct G2 as (c2 & G2). exact (used_cuts L R HR w Hw (h_cv I h) bs bs' c1 outs c2 outs' (HU h eq_refl) (fits_blocks w M bs Hf) (fits_blocks w M bs' Hf') E G1 G2).
    - subst. auto.
  Qed.
End Cuts.

(** How the host cuts the sound into blocks makes no difference while nothing is loaded, from the first response on, and during and
    after a cross-fade: the same samples in other blocks give the same samples. *)
Theorem C77_cuts_do_not_matter : forall (A : arith), arith_laws A -> inv_law A -> forall R : rfft A, rfft_ok R ->
  let I := convolver_if R in
  forall w, 0 < w -> forall env l s e b, reached I w (used R w) env l s e -> engine_bounds s = Ok b -> no_loads e ->
  line e = [] \/
  (exists h, in_line e = [h] /\ (e_conv I e = Some h \/ e_commands I e = [h])) \/
  (exists a h n, begins b kCrossfade a h n e /\ e_commands I e = [h]) ->
  forall bs bs', fits w (ps_max_block s) bs -> fits w (ps_max_block s) bs' -> (forall i, i < w -> channel i bs = channel i bs') ->
  exists e1 outs e2 outs', eng_run I e (map (Process I) bs) = Ok (e1, outs) /\ eng_run I e (map (Process I) bs') = Ok (e2, outs') /\
    forall o, o < w -> channel o outs = channel o outs'.
Proof.
  intros A L HV R HR I w Hw env l s e b HRe Eb HN HC bs bs' Hf Hf' Hch.
  assert (HI := C46_convolvers_are_accepting A L R HR w : accepting I w (used R w)).
  destruct (reached_tracked I w (used R w) Hw HI env l s e HRe) as (Hsp & bd & Ebd & Hi). assert (bd = b) by congruence. subst bd.
  pose proof Hi as [Si Qi].
  destruct HC as [HC|[(h & Hl & HC)|(a & h & n & HB & Ec)]].
  - apply (plays_cuts L R HR w Hw (ps_max_block s) e None bs bs'); auto; [discriminate|].
    exact (C39_none_for_ever A I w (used R w) Hw HI env l s e HRe HC HN).
  - destruct HC as [HC|HC].
    + assert (HX : alone I e).
      { unfold in_line in Hl. rewrite HC in Hl. cbn [app] in Hl. injection Hl as Hl. apply app_eq_nil in Hl as [L1 Hl]. apply app_eq_nil in Hl as [L2 L3].
        destruct (e_fade I e) eqn:E1; [discriminate|]. destruct (e_pending I e) eqn:E2; [discriminate|]. repeat split; auto. }
      apply (plays_cuts L R HR w Hw (ps_max_block s) e (Some h) bs bs'); auto.
      * intros h' Eh. injection Eh as <-. apply (i_conv _ _ _ _ _ _ Si). exact HC.
      * rewrite <- HC. apply (alone_plays I w (used R w) Hw HI (ps_max_block s) b); auto. apply Hsp.
    + apply (plays_cuts L R HR w Hw (ps_max_block s) e (Some h) bs bs'); auto.
      * intros h' Eh. injection Eh as <-. destruct Qi as [Q1 _]. rewrite HC in Q1. now inversion Q1.
      * exact (C39_first_for_ever A I w (used R w) Hw HI env l s e h HRe Hl HC HN).
  - destruct (C36_crossfade_whole A L HV I w (used R w) Hw HI env l s e b HRe Eb HN a h n HB Ec bs Hf) as (e1 & o1 & a1 & h1 & x1 & y1 & E1 & F1 & G1 & C1 & _).
    destruct (C36_crossfade_whole A L HV I w (used R w) Hw HI env l s e b HRe Eb HN a h n HB Ec bs' Hf') as (e2 & o2 & a2 & h2 & x2 & y2 & E2 & F2 & G2 & C2 & _).
    exists e1, o1, e2, o2. split; auto. split; auto. intros o Ho. rewrite C1, C2 by exact Ho.
    pose proof (fits_blocks w _ bs Hf) as B1. pose proof (fits_blocks w _ bs' Hf') as B2.
    assert (Ua : used R w (h_cv I a)) by (apply (i_conv _ _ _ _ _ _ Si); apply HB).
    assert (Uh : used R w (h_cv I h)) by (destruct Qi as [Q1 _]; rewrite Ec in Q1; now inversion Q1).
    rewrite (used_cuts L R HR w Hw (h_cv I a) bs bs' a1 x1 a2 x2 Ua B1 B2 Hch F1 F2 o Ho).
    rewrite (used_cuts L R HR w Hw (h_cv I h) bs bs' h1 y1 h2 y2 Uh B1 B2 Hch G1 G2 o Ho). reflexivity.
Qed.
Print Assumptions C77_cuts_do_not_matter.

(** An in/out fade does depend on it: its second half begins with a block.  The fade of C37_example, in blocks of 3 samples and in
    blocks of 4. *)
Theorem C77_in_out_refuted :
  let I := toy Zarith in
  let h i := toy_held Zarith i (Z.of_nat i) 50%Z kInOut in
  let l := [Prepare I small_spec; Others I [Deliver I (h 1)]; Process I [[1; 1]%Z]; Others I [Deliver I (h 2)]] in
  exists e e1 outs e2 outs', reached I 1 (fun _ => True) [] l small_spec e /\ no_loads e /\
    eng_run I e (map (Process I) [[[4; 4; 4]]; [[4; 4; 4]]; [[4; 4; 4]]; [[4; 4; 4]]]%Z) = Ok (e1, outs) /\
    eng_run I e (map (Process I) [[[4; 4; 4; 4]]; [[4; 4; 4; 4]]; [[4; 4; 4; 4]]]%Z) = Ok (e2, outs') /\
    channel 0 outs = [3; 2; 1; 0; 0; 0; 2; 4; 6; 8; 8; 8]%Z /\ channel 0 outs' = [3; 2; 1; 0; 2; 4; 6; 8; 8; 8; 8; 8]%Z.
Proof.
  intros I h l.
  assert (HRun : match eng_run I (eng_new I []) l with
    | Ok (e, _) => match e_env I e with [] => True | _ => False end /\
      match eng_run I e (map (Process I) [[[4; 4; 4]]; [[4; 4; 4]]; [[4; 4; 4]]; [[4; 4; 4]]]%Z) with
      | Ok (_, o) => channel 0 o = [3; 2; 1; 0; 0; 0; 2; 4; 6; 8; 8; 8]%Z | _ => False end /\
      match eng_run I e (map (Process I) [[[4; 4; 4; 4]]; [[4; 4; 4; 4]]; [[4; 4; 4; 4]]]%Z) with
      | Ok (_, o) => channel 0 o = [3; 2; 1; 0; 2; 4; 6; 8; 8; 8; 8; 8]%Z | _ => False end
    | _ => False end) by (vm_compute; repeat split).
  destruct (eng_run I (eng_new I []) l) as [[e outs]| |] eqn:E; try contradiction. destruct HRun as (Ee & H1 & H2).
  assert (Ee' : e_env I e = []) by (destruct (e_env I e); [reflexivity|contradiction]).
  destruct (eng_run I e (map (Process I) [[[4; 4; 4]]; [[4; 4; 4]]; [[4; 4; 4]]; [[4; 4; 4]]]%Z)) as [[e1 o1]| |] eqn:R1; try contradiction.
  destruct (eng_run I e (map (Process I) [[[4; 4; 4; 4]]; [[4; 4; 4; 4]]; [[4; 4; 4; 4]]]%Z)) as [[e2 o2]| |] eqn:R2; try contradiction.
  exists e, e1, o1, e2, o2. split; [|split; [|split; [|split; [|split]]]]; auto.
  - split; [constructor|]. split; [|split; [reflexivity|eauto]]. split; [exact small_spec_ok|]. split; [intros ? ?; exact Logic.I|].
    split; [|split; [intros ? ?; exact Logic.I|exact Logic.I]]. exists 16, 2. split; auto. split; [lia|]. split; auto. intros c [<-|[]]. reflexivity.
  - intros y Hy. rewrite Ee' in Hy. destruct Hy.
Qed.
Print Assumptions C77_in_out_refuted.

(** ** a case *)
(** Real convolvers, two channels: a response is playing, a second one has been delivered and a cross-fade over 4410 samples begins
    with the next block.  This is a state as in C77.  Two histories with blocks that differ from sample 40 on as in C76. *)
Section Case.
  Notation Fr := (@fast_rfft Rarith).
  Notation I := (convolver_if Fr).
  Local Notation ir := ([[1; 2; 3]; [7; -1; 0]]%R : audio Rarith).
  Local Notation sp := {| cs_in := [0; 1]; cs_out := [0; 1]; cs_fade := kCrossfade; cs_internal := None |}.
  Local Notation s := {| ps_rate_num := 44100; ps_rate_den := 1; ps_max_block := 64; ps_channels := 2 |}.
  Local Notation step k := (tab 2 (fun c => tab 64 (fun i => if i <? 40 then INR i else INR k)) : audio Rarith).
  Example C76_C77_example : exists c, well_made Fr 2 3 ir 64 sp c /\
    let h i := {| h_id := i; h_cv := c : cv I |} in
    let l := [Prepare I s; Others I [Deliver I (h 0)]; Process I (step 1); Others I [Deliver I (h 1)]] in
    (exists e b a, reached I 2 (used Fr 2) [] l s e /\ engine_bounds s = Ok b /\ no_loads e /\ begins b kCrossfade a (h 1) 4410 e /\ e_commands I e = [h 1]) /\
    (legal I 2 (used Fr 2) None (l ++ Process I (step 2) :: [Reset I]) /\ legal I 2 (used Fr 2) None (l ++ Process I (step 3) :: [Clear I; Process I (step 4)]) /\
     same_start 40 (step 2) (step 3) /\ step 2 <> step 3).
  Proof.
    assert (X : exists c, well_made Fr 2 3 ir 64 sp c).
    { apply (well_made_exists Rarith_laws fast_rfft (fast_rfft_ok Rarith_laws)); cbn; try lia.
      split; auto. intros c H; repeat (destruct H as [<-|H]); try destruct H; reflexivity. }
    destruct X as (c & Hc).
    exists c. split; [exact Hc|]. intros h l.
    assert (HU : used Fr 2 c) by (eapply used_new; eauto).
    assert (Hs : spec_ok 2 s) by (unfold spec_ok, rate_ok; cbn; lia).
    assert (Hb : forall k, block_of 2 64 (step k)).
    { intros k. split; [apply tab_length|]. intros x Hx. apply In_nth with (d := []) in Hx as (q & Hq & <-). rewrite tab_length in Hq. rewrite tab_nth by exact Hq. apply tab_length. }
    assert (Hl : forall rest, legal I 2 (used Fr 2) (Some 64) rest -> legal I 2 (used Fr 2) None (l ++ rest)).
    { intros rest Hr. unfold l. cbn [app legal]. split; [exact Hs|]. split; [intros q [E|[]]; injection E as <-; exact HU|].
      split; [exists 64, 64; auto|]. split; [intros q [E|[]]; injection E as <-; exact HU|exact Hr]. }
    assert (HI := C46_convolvers_are_accepting Rarith Rarith_laws Fr (fast_rfft_ok Rarith_laws) 2 : accepting I 2 (used Fr 2)).
    destruct (C38_bounds s) as (b & Eb & _); [apply Hs|]. split.
    - destruct (first_second I 2 (used Fr 2) ltac:(lia) HI [] s b (h 0) (h 1) [step 1] Hs Eb (Forall_nil _) ltac:(intros ? []) HU HU)
        as (e & outs & c' & E & _ & HN & Hr & Ec & _ & Ecv); [intros x [<-|[]]; exists 64; split; [cbn; lia|apply Hb]|discriminate|].
      exists e, b, (renew I (h 0) c'). split; [|split; [exact Eb|split; [exact HN|split; [|exact Ec]]]].
      + split; [constructor|]. split; [|split; [reflexivity|eexists; exact E]]. rewrite <- (app_nil_r l). now apply Hl.
      + split; [exact Hr|]. split; [exact Ecv|]. split; [rewrite Ec; reflexivity|].
        destruct (well_made_meta Fr 2 3 ir 64 sp c Hc) as [M1 M2]. cbn [cv_samples cv_fade convolver_if h_cv h]. rewrite M1, M2.
        rewrite (C38_seconds s 44100) in Eb by (reflexivity || lia). injection Eb as <-. vm_compute. reflexivity.
    - split; [|split; [|split]].
      + apply Hl. cbn [legal]. split; [exists 64, 64; auto|]. split; [discriminate|exact Logic.I].
      + apply Hl. cbn [legal]. split; [exists 64, 64; auto|]. split; [discriminate|]. split; [exists 64, 64; auto|exact Logic.I].
      + split; [now rewrite !tab_length|]. intros q. destruct (Nat.lt_ge_cases q 2) as [Hq|Hq].
        * rewrite !tab_nth by exact Hq. split; [now rewrite !tab_length|]. rewrite !tab_firstn. apply tab_ext. intros i Hi. destruct (Nat.ltb_spec i 40); [reflexivity|lia].
        * rewrite !nth_overflow by (rewrite tab_length; exact Hq). auto.
      + intros E. apply (f_equal (fun x => nth 40 (nth 0 x []) 0%R)) in E. rewrite !tab_nth in E by lia.
        change (40 <? 40) with false in E. cbv iota in E. apply Reals.RIneq.INR_eq in E. discriminate.
  Qed.
End Case.

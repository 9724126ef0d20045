(** * C67: the engine forgets, whatever the arithmetic *)
From Coq Require Import ZArith Floats.SpecFloat.
From Verif.Model Require Import Base Arith ArithIEEE Juce Partitioning PartitionSchemes UniformPartitionedConvolver TimeDistributedNUPC
     Convolver ConvolutionEngine.
From Verif.Spec Require Import Transform Signal Routing Engine Memory Twins.
From Verif.Proofs Require Import Lists Butterfly Blocks Streams RealFFTProof Stamp Param MemoryProof EngineInv EngineMemory.
From Verif.Props Require Import PartitionProps ConvolverProps WholeProps MemoryProps.

(** a new convolver that forgets within [D] samples (C63) *)
Definition forgetful {A : arith} (R : rfft A) (w D : nat) (c : convolver A) : Prop :=
  exists m ir M spec B, well_made R w m ir M spec c /\ conv_block_size (Z.of_nat M) (cs_internal spec) = Ok B /\ settling m (Z.to_nat B) <= D.

(** ** the real convolvers *)
Lemma while_inv {X} (P : X -> Prop) cond f : (forall x y, P x -> f x = Ok y -> P y) -> forall n x y, P x -> while_ n cond f x = Ok y -> P y.
Proof.
  intros Hf. induction n as [|n IH]; intros x y Hx; cbn [while_]; destruct (cond x); try discriminate; try (intros E; injection E as <-; exact Hx).
  destruct (f x) as [x1| |] eqn:E1; cbn [bind]; try discriminate. apply IH. eapply Hf; eauto.
Qed.
Section Real.
  Context {A : arith} (R : rfft A).
  Definition looks (c c' : convolver A) : Prop := c_spec c' = c_spec c /\ c_num_samples c' = c_num_samples c.
  Lemma process_looks c b c' o : conv_process R c b = Ok (c', o) -> looks c c'.
  Proof.
    unfold conv_process. match goal with |- bind (while_ ?n ?cd ?f ?x) _ = _ -> _ => destruct (while_ n cd f x) as [[[c1 o1] k1]| |] eqn:E end; cbn [bind]; try discriminate.
    intros X. injection X as <- <-.
    apply (while_inv (fun st : convolver A * audio A * nat => looks c (fst (fst st)))) in E; [exact E| |split; reflexivity].
    intros [[c2 o2] k2] y [H1 H2] H. cbn [fst] in *. unfold conv_round in H.
    repeat match type of H with bind ?x _ = Ok _ => destruct x as [?v| |]; cbn [bind] in H; try discriminate H end.
    destruct v4 as [v4 v5].
    repeat match type of H with bind ?x _ = Ok _ => destruct x as [?v| |]; cbn [bind] in H; try discriminate H end.
    injection H as <-. split; auto.
  Qed.

  Variables (w D : nat).
  Hypothesis HR : rfft_sized R.
  Hypothesis Hw : 0 < w.
  (** two states of a convolver, reached by runs with the same block sizes whose last [k] samples are the same *)
  Definition forgot (k : nat) (c c' : convolver A) : Prop :=
    exists m ir M spec B new hist hist' cur cur' s past s' past' outs outs',
      well_made R w m ir M spec new /\ conv_block_size (Z.of_nat M) (cs_internal spec) = Ok B /\ settling m (Z.to_nat B) <= D /\
      ((forall blocks, In blocks hist -> blocks_of w blocks) /\ blocks_of w cur /\
       Forall2 same_shapes hist hist' /\ same_shapes cur cur' /\ agree_from w (total cur - k) cur cur') /\
      (feed_sessions (conv_process R) conv_reset new hist = Ok (s, past) /\ feed (conv_process R) s cur = Ok (c, outs) /\
       feed_sessions (conv_process R) conv_reset new hist' = Ok (s', past') /\ feed (conv_process R) s' cur' = Ok (c', outs')) /\
      (forall ch, ch < w -> length (channel ch outs) = total cur /\ length (channel ch outs') = total cur) /\
      looks new c /\ looks new c'.

  Lemma agree_nth T (bs bs' : list (audio A)) : (forall c, c < w -> length (channel c bs) = length (channel c bs')) ->
    agree_from w T bs bs' <-> forall c, c < w -> forall i, T <= i -> nth i (channel c bs) s0 = nth i (channel c bs') s0.
  Proof.
    intros HL. split; intros H c Hc.
    - intros i Hi. specialize (H c Hc). apply (f_equal (fun l => nth (i - T) l s0)) in H. rewrite !nth_skipn' in H. now replace (T + (i - T)) with i in H by lia.
    - apply (nth_ext _ _ s0 s0); [rewrite !skipn_length, HL by auto; reflexivity|]. intros i Hi. rewrite !nth_skipn'. apply H; auto. lia.
  Qed.
  Lemma same_lengths (bs bs' : list (audio A)) c : same_shapes bs bs' -> length (channel c bs) = length (channel c bs').
  Proof.
    intros H. induction H as [|b b' l l' Hb _ IH]; auto. cbn [channel map concat]. rewrite !app_length. f_equal; [now apply shape_length|exact IH].
  Qed.
  Lemma length_total (bs : list (audio A)) c : blocks_of w bs -> c < w -> length (channel c bs) = total bs.
  Proof.
    intros H Hc. induction bs as [|b bs IH]; auto. unfold total. cbn [channel map concat list_sum fold_right]. rewrite app_length. f_equal.
    - destruct (H b) as (m & Hb); [now left|]. rewrite (block_samples w m b Hw Hb). now apply (block_channel w).
    - apply IH. intros x Hx. apply H. now right.
  Qed.
  Lemma feed_snoc c bs b c1 outs : feed (conv_process R) c bs = Ok (c1, outs) -> 
    feed (conv_process R) c (bs ++ [b]) = (' (c2, o) <- conv_process R c1 b ;; Ok (c2, outs ++ [o])).
  Proof.
    revert c outs. induction bs as [|x bs IH]; intros c outs E; cbn [feed app] in *.
    - injection E as <- <-. destruct (conv_process R c b) as [[c2 o]| |]; reflexivity.
    - destruct (conv_process R c x) as [[c2 o]| |]; cbn [bind] in *; try discriminate.
      destruct (feed (conv_process R) c2 bs) as [[c3 os]| |] eqn:E3; cbn [bind] in *; try discriminate. injection E as <- <-.
      rewrite (IH _ _ E3). destruct (conv_process R c3 b) as [[c4 o4]| |]; reflexivity.
  Qed.
  Lemma shapes_blocks (bs bs' : list (audio A)) : same_shapes bs bs' -> blocks_of w bs -> blocks_of w bs'.
  Proof.
    intros H HB. induction H as [|b b' l l' Hb _ IH]; [intros ? []|]. intros x [<-|Hx].
    - destruct (HB b) as (m & Hm); [now left|]. exists m. eapply shape_block; eauto.
    - apply IH; auto. intros y Hy. apply HB. now right.
  Qed.
  Lemma channel_snoc c (bs : list (audio A)) b : channel c (bs ++ [b]) = channel c bs ++ nth c b [].
  Proof. unfold channel. rewrite map_app, concat_app. cbn [map concat]. now rewrite app_nil_r. Qed.
  Lemma total_snoc m (bs : list (audio A)) b : block_of w m b -> total (bs ++ [b]) = total bs + m.
  Proof. intros Hb. unfold total. rewrite map_app, list_sum_app. cbn. rewrite (block_samples w m b Hw Hb). lia. Qed.

  Theorem convolvers_forget : forgets (convolver_if R) w D (forgetful R w D) forgot.
  Proof.
    split; cbn [cv cv_process cv_reset cv_samples cv_fade convolver_if].
    - intros c k (m & ir & M & spec & B & H1 & H2 & H3).
      exists m, ir, M, spec, B, c, [], [], [], [], c, [], c, [], [], [].
      split; auto. split; auto. split; auto. split; [|split; [|split]].
      + split; [intros ? []|]. split; [intros ? []|]. split; [constructor|]. split; [constructor|]. intros ch Hc. reflexivity.
      + repeat split; reflexivity.
      + intros; split; reflexivity.
      + repeat split.
    - intros k j c c' (m & ir & M & spec & B & new & hist & hist' & cur & cur' & s & past & s' & past' & outs & outs' & H1 & H2 & H3 & (H4 & H5 & H6 & H7 & H8) & H9) Hj.
      exists m, ir, M, spec, B, new, hist, hist', cur, cur', s, past, s', past', outs, outs'. repeat (split; [assumption|]). split; [|assumption].
      repeat (split; [assumption|]). apply agree_nth; [intros; now apply same_lengths|]. pose proof (proj1 (agree_nth _ cur cur' (fun c _ => same_lengths cur cur' c H7)) H8) as H8n.
      intros ch Hc i Hi. apply H8n; auto. lia.
    - intros k c c' (m & ir & M & spec & B & new & hist & hist' & cur & cur' & s & past & s' & past' & outs & outs' & H1 & H2 & H3 & (H4 & H5 & H6 & H7 & H8) & (E1 & E2 & E3 & E4) & HL & L1 & L2).
      exists m, ir, M, spec, B, new, (hist ++ [cur]), (hist' ++ [cur']), [], [], (conv_reset c), (past ++ [outs]), (conv_reset c'), (past' ++ [outs']), [], [].
      split; auto. split; auto. split; auto. split; [|split; [|split; [|split]]].
      + split; [intros x Hx; apply in_app_iff in Hx as [Hx|[<-|[]]]; auto|]. split; [intros ? []|].
        split; [apply Forall2_app; auto|]. split; [constructor|]. intros ch Hc. reflexivity.
      + rewrite !feed_sessions_app, E1, E3. cbn [bind feed_sessions]. rewrite E2, E4. cbn. auto.
      + intros; split; reflexivity.
      + exact L1.
      + exact L2.
    - intros c c' (m & ir & M & spec & B & new & hist & hist' & cur & cur' & s & past & s' & past' & outs & outs' & H1 & H2 & H3 & H4 & H5 & HL & [L1 L1'] & [L2 L2']). congruence.
    - intros c c' (m & ir & M & spec & B & new & hist & hist' & cur & cur' & s & past & s' & past' & outs & outs' & H1 & H2 & H3 & H4 & H5 & HL & [L1 L1'] & [L2 L2']). congruence.
    - intros k T m0 c c' b b' (m & ir & M & spec & B & new & hist & hist' & cur & cur' & s & past & s' & past' & outs & outs' & H1 & H2 & H3 & (H4 & H5 & H6 & H7 & H8) & (E1 & E2 & E3 & E4) & HL & L1 & L2) Hb Hb' Ha HT.
      set (T' := if T =? 0 then total cur - k else total cur + T).
      assert (Hs : same_shape b b').
      { red. clear - Hb Hb'. assert (X : forall n (x : audio A), (forall c, In c x -> length c = m0) -> length x = n -> map (@length _) x = repeat m0 n).
        { intros n x Hx <-. induction x as [|a x IH]; cbn; auto. rewrite Hx by now left. f_equal. apply IH. intros; apply Hx. now right. }
        rewrite (X w b), (X w b'); auto; apply Hb || apply Hb'. }
      assert (Hbs : blocks_of w (cur ++ [b])) by (intros x Hx; apply in_app_iff in Hx as [Hx|[<-|[]]]; eauto).
      assert (Hsh : same_shapes (cur ++ [b]) (cur' ++ [b'])) by (apply Forall2_app; auto; repeat constructor; auto).
      assert (Hag : agree_from w T' (cur ++ [b]) (cur' ++ [b'])).
      { apply agree_nth; [intros; now apply same_lengths|]. pose proof (proj1 (agree_nth _ cur cur' (fun c _ => same_lengths cur cur' c H7)) H8) as H8n.
        intros ch Hc i Hi. rewrite !channel_snoc. pose proof (length_total cur ch H5 Hc) as LC. pose proof (same_lengths cur cur' ch H7) as LC'.
        destruct (Nat.lt_ge_cases i (total cur)) as [Hlt|Hge].
        - rewrite !app_nth1 by lia. apply H8n; auto. unfold T' in Hi. destruct (T =? 0); lia.
        - rewrite !app_nth2 by lia. rewrite <- LC', LC. apply Ha. unfold T' in Hi. destruct (Nat.eqb_spec T 0); lia. }
      destruct (C63_finite_memory A R HR w m ir M spec new B H1 H2 T' hist hist' (cur ++ [b]) (cur' ++ [b']) H4 Hbs H6 Hsh Hag)
        as (s1 & p1 & s1' & p1' & e & os & e' & os' & F1 & F2 & F3 & F4 & F5 & F6).
      rewrite E1 in F1. injection F1 as <- <-. rewrite E3 in F3. injection F3 as <- <-.
      pose proof (feed_snoc _ _ b _ _ E2) as G1. pose proof (feed_snoc _ _ b' _ _ E4) as G2. rewrite F2 in G1. rewrite F4 in G2.
      destruct (conv_process R c b) as [[c1 o]| |] eqn:P1; cbn [bind] in G1; try discriminate. injection G1 as -> ->.
      destruct (conv_process R c' b') as [[c1' o']| |] eqn:P2; cbn [bind] in G2; try discriminate. injection G2 as -> ->.
      assert (U : used R w c) by (exists m, ir, M, spec, new, hist, cur, s, past, outs; auto 6).
      assert (U' : used R w c').
      { exists m, ir, M, spec, new, hist', cur', s', past', outs'. split; auto. split; [|split; [now apply (shapes_blocks cur)|auto]].
        clear - H4 H6. induction H6 as [|x x' l l' Hx _ IH]; [intros ? []|]. intros y [<-|Hy].
        - apply (shapes_blocks x); auto. apply H4. now left.
        - apply IH; auto. intros z Hz. apply H4. now right. }
      destruct (C62_convolvers_are_accepting A R HR w) as [Acc _].
      assert (Bo : block_of w m0 o).
      { destruct (Acc c m0 b U Hb) as (x & y & X & _ & Y). cbn [cv_process convolver_if] in X. rewrite P1 in X. injection X as _ <-. exact Y. }
      assert (Bo' : block_of w m0 o').
      { destruct (Acc c' m0 b' U' Hb') as (x & y & X & _ & Y). cbn [cv_process convolver_if] in X. rewrite P2 in X. injection X as _ <-. exact Y. }
      exists c1, o, c1', o'. split; auto. split; auto. split; auto. split; auto. split.
      + exists m, ir, M, spec, B, new, hist, hist', (cur ++ [b]), (cur' ++ [b']), s, past, s', past', (outs ++ [o]), (outs' ++ [o']).
        split; auto. split; auto. split; auto. split; [|split; [|split; [|split]]].
        * repeat (split; [assumption|]). rewrite (total_snoc m0) by auto.
          replace (total cur + m0 - age k T m0) with T'; [exact Hag|]. unfold T', age. destruct (Nat.eqb_spec T 0); lia.
        * auto.
        * intros ch Hc. destruct (HL ch Hc) as [X1 X2]. rewrite !channel_snoc, !app_length, X1, X2, (total_snoc m0) by auto.
          split; f_equal; now apply (block_channel w).
        * apply process_looks in P1. destruct L1, P1. split; congruence.
        * apply process_looks in P2. destruct L2, P2. split; congruence.
      + intros ch i Hi Hage. destruct (Nat.lt_ge_cases ch w) as [Hc|Hc].
        2:{ destruct Bo as [Bo _], Bo' as [Bo' _]. rewrite (nth_overflow o), (nth_overflow o') by lia. reflexivity. }
        destruct (HL ch Hc) as [X1 X2].
        pose proof (proj1 (agree_nth _ _ _ (fun c _ => same_lengths _ _ c F5)) F6) as F6n. specialize (F6n ch Hc (total cur + i)).
        rewrite !channel_snoc, !app_nth2, X1, X2 in F6n by lia. replace (total cur + i - total cur) with i in F6n by lia.
        apply F6n. unfold age in Hage. destruct (Nat.eqb_spec T' 0); [lia|]. unfold T' in *. destruct (Nat.eqb_spec T 0); lia.
  Qed.
End Real.

(** ** C67 *)
(** Two runs of the engine with the same calls, the same actions of the other threads and blocks of the same sizes, but
    different samples.  The same convolvers are delivered, destroyed and in line at the end; from the moment the inputs agree,
    and [D] samples later, the outputs are the same, bit for bit: a NaN, or anything else, is forgotten. *)
Theorem C67_engine_forgets : forall (A : arith) (R : rfft A), rfft_sized R -> forall w D, 0 < w ->
  let I := convolver_if R in
  forall env l l' T, Forall (delivers_ok I (forgetful R w D)) env -> legal I w (forgetful R w D) None l ->
  Forall2 (same_call I) l l' -> agree_from w T (blocks_in I l) (blocks_in I l') ->
  exists e outs e' outs',
    eng_run I (eng_new I env) l = Ok (e, outs) /\ eng_run I (eng_new I env) l' = Ok (e', outs') /\
    line e = line e' /\ e_log I e = e_log I e' /\
    same_shapes outs outs' /\ agree_from w (if T =? 0 then 0 else T + D) outs outs'.
Proof.
  intros A R HR w D Hw I env l l' T He Hl Hs Ha.
  assert (FU : forall c, forgetful R w D c -> used R w c) by (intros c (m & ir & M & spec & B & H & _); eapply used_new; eauto).
  assert (HLen : forall c, c < w -> length (channel c (blocks_in I l)) = length (channel c (blocks_in I l'))).
  { intros c Hc. apply same_lengths. clear - Hs. induction Hs as [|o o' l l' Ho _ IH]; cbn; [constructor|].
    destruct Ho as [b b' Hb|o Ho]; [constructor; auto|]. destruct o; auto. now elim (Ho b). }
  pose proof (run_good I w D (forgetful R w D) (forgot R w D) Hw (convolvers_forget R w D HR Hw) l l' None D T _ _
    (good_new I w (forgetful R w D) (forgot R w D) D env He) Hs Hl (proj1 (agree_nth w Hw T _ _ HLen) Ha)) as HG.
  destruct (C62_engine_never_fails A R HR w Hw env l) as (e & outs & E & _).
  - eapply Forall_impl; [|exact He]. intros a Hd h Hh. apply FU. now apply Hd.
  - clear - Hl FU. revert Hl. generalize (@None nat) as P. induction l as [|o l IH]; intros P; cbn [legal]; auto.
    destruct o; intros [H1 H2]; split; auto. intros h Hh. apply FU. now apply H1.
  - fold I in E. rewrite E in HG. inversion HG as [? [e' outs'] HP E1 E2| |]. inversion HP as [? ? ? ? (P1 & k1 & G) (S1 & S2)]. subst.
    exists e, outs, e', outs'. split; auto. split; auto.
    destruct (good_line I w D _ _ Hw (convolvers_forget R w D HR Hw) P1 k1 e e' G) as [G1 G2]. split; auto. split; auto. split; auto.
    apply (agree_nth w Hw); [intros; now apply same_lengths|]. unfold settled_at in S2. rewrite Nat.sub_diag in S2. exact S2.
Qed.
Print Assumptions C67_engine_forgets.
(** Floats with NaNs and infinities: a convolver is loaded and played garbage; another one is loaded and the engine fades to it
    while the garbage still rings; then there is silence.  From 172 samples after the garbage on, the output is what it would
    be had there been silence all along. *)
Section Example67.
  Variables (cosf sinf : nat -> spec_float) (powf : spec_float * spec_float -> nat -> spec_float * spec_float).
  Notation F := (IEEE cosf sinf powf).
  Example C67_example :
    let I := @convolver_if F fast_rfft in
    let s := {| ps_rate_num := 44100; ps_rate_den := 1; ps_max_block := 64; ps_channels := 2 |} in
    let quiet := silence cosf sinf powf in
    exists c : convolver F, @conv_make F fast_rfft (ir2 cosf sinf powf) 40 spec2 = Ok c /\
    let h i := {| h_id := i; h_cv := c : cv I |} in
    let history b := [Others I [Deliver I (h 1)]; Prepare I s; Process I (quiet 3); Process I b; Others I [Deliver I (h 2)];
                      Process I (quiet 64); Process I (quiet 64); Process I (quiet 64); Process I (quiet 64)] in
    exists e outs e' outs',
      eng_run I (eng_new I []) (history (garbage cosf sinf powf)) = Ok (e, outs) /\
      eng_run I (eng_new I []) (history (quiet 5)) = Ok (e', outs') /\
      line e = line e' /\ e_log I e = e_log I e' /\ same_shapes outs outs' /\ agree_from 2 (8 + 167) outs outs'.
  Proof.
    intros I s quiet. destruct (made cosf sinf powf) as (c & Hc). exists c. split; [apply Hc|]. intros h history.
    assert (H1 : block_of 2 5 (garbage cosf sinf powf)) by (split; auto; intros x H; repeat (destruct H as [<-|H]); try destruct H; reflexivity).
    assert (H2 : forall n, block_of 2 n (quiet n)) by (intros n; split; auto; intros x H; repeat (destruct H as [<-|H]); try destruct H; apply repeat_length).
    assert (HN : forgetful (A := F) fast_rfft 2 167 c).
    { exists 3, (ir2 cosf sinf powf), 40, spec2, 32%Z. split; [exact Hc|]. split; [reflexivity|]. vm_compute. lia. }
    apply (C67_engine_forgets F fast_rfft (fast_rfft_sized F) 2 167 ltac:(lia) [] (history (garbage cosf sinf powf)) (history (quiet 5)) 8).
    - constructor.
    - assert (HS : spec_ok 2 s) by (unfold spec_ok, rate_ok; cbn; lia).
      assert (Q : forall n, n <= 64 -> exists M m, Some (ps_max_block s) = Some M /\ m <= M /\ block_of 2 m (quiet n)) by (intros n Hn; exists 64, n; auto).
      assert (P1 : exists M m, Some (ps_max_block s) = Some M /\ m <= M /\ block_of 2 m (garbage cosf sinf powf)) by (exists 64, 5; repeat split; try apply H1; cbn; lia).
      assert (HD : forall i, delivers_ok I (forgetful (A := F) fast_rfft 2 167) [Deliver I (h i)]) by (intros i x [Ex|[]]; injection Ex as <-; exact HN).
      unfold history. cbn [legal]. repeat (split; [first [apply HD|apply HS|apply Q; lia|apply P1]|]). exact Logic.I.
    - repeat first [apply Forall2_nil | apply Forall2_cons]; (apply sc_process; reflexivity) || (apply sc_same; discriminate).
    - intros [|[|?]] Hch; [reflexivity|reflexivity|lia].
  Qed.
End Example67.

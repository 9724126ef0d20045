(** * Arithmetics that agree with single precision below 2^127 *)
From Coq Require Import Reals Lra.
From Verif.Model Require Import Base Arith ArithReal ArithSingle Juce ComplexBuffer FFT Partitioning PartitionSchemes UniformPartitionedConvolver TimeDistributedUPC
     TimeDistributedUPCMulti TimeDistributedNUPC Convolver.
From Verif.Spec Require Import Transform Buffers Signal Layout Precision Memory Overflow.
From Verif.Proofs Require Import Lists ComplexAlg Butterfly FFTProof Blocks Norms FloatProof SingleProof SingleFFT RealFFTProof Streams StreamsQ TDUPCProof
     TDUPCStream Delay UPCProof UPCFloat MultiProof NUPCProof NUPCFloat NUPCMake ConvolverProof ConvolverFloat Param Ext ExtBounds ExtOut ExtRun.
Open Scope R_scope.

Lemma upc_filter_inside {A : arith} (R : rfft A) n s o p (ir : audio A) i f : upc_filter R n s o p ir i = Ok f -> (i * p < num_samples ir)%nat.
Proof.
  unfold upc_filter, usub. destruct (Nat.leb_spec (i * p) (num_samples ir)); cbn [bind]; [|discriminate].
  unfold blk_sub at 1. destruct (Nat.ltb_spec (i * p) (num_samples ir)); cbn [assert bind]; [auto|discriminate].
Qed.
Lemma multi_filter_inside {A : arith} p (ir : audio A) i f : multi_filter p ir i = Ok f -> (i * p < num_samples ir)%nat.
Proof.
  unfold multi_filter, usub. destruct (Nat.leb_spec (i * p) (num_samples ir)); cbn [bind]; [|discriminate].
  unfold blk_sub at 1. destruct (Nat.ltb_spec (i * p) (num_samples ir)); cbn [assert bind]; [auto|discriminate].
Qed.

Lemma Ok_inj {T} (a b : T) : Ok a = Ok b -> a = b. Proof. now injection 1. Qed.
Section Generic.
  Context {A1 : arith}.
  Variable rel : sample A1 -> R -> Prop.
  Variable pow : R * R -> nat -> R * R.
  Notation F := (SingleWith pow).
  Notation E := (Ext pow).
  Variables (R1 : rfft A1) (Rs : rfft F).
  Notation ER := (ext_rfft pow Rs).
  Hypothesis HRs : rfft_sized Rs.
  Hypothesis HRb : rfft_bounded (@rfft_fwd F Rs) (@rfft_inv F Rs).
  Notation rb := (rb pow).
  Notation cb := (cb pow).
  Variables (kt : nat) (tau : R).
  Hypothesis (Htau : 0 <= tau <= / 4) (Hpow : pow_accurate pow (@cis F) (@cis_neg F) kt tau).

  Hypothesis rel_0 : rel s0 0.
  Hypothesis rel_add : forall x y a b, rel x a -> rel y b -> Rabs (single (a + b)) <= big -> rel (sadd x y) (single (a + b)).
  Hypothesis rel_sub : forall x y a b, rel x a -> rel y b -> Rabs (single (a - b)) <= big -> rel (ssub x y) (single (a - b)).
  Hypothesis rel_mul : forall x y a b, rel x a -> rel y b -> Rabs (single (a * b)) <= big -> rel (smul x y) (single (a * b)).
  Hypothesis rel_half : rel shalf (1 / 2).
  Hypothesis rel_roots : same_roots rel kt pow.
  Hypothesis rel_transform : same_transform rel (rfft_fwd R1) (rfft_inv R1) (@rfft_fwd F Rs) (@rfft_inv F Rs).

  Definition Qs (x : sample A1) (o : sample E) : Prop := match o with Some r => rel x r | None => True end.
  Definition Qc (x : sample A1) (o : sample E) : Prop := exists r, o = Some r /\ rel x r.
  Definition Qx (x : sample A1) (o : sample E) : Prop := exists r, o = Some r /\ rel x r /\ Rabs r <= Xmax.
  Definition pow2_upto (n : nat) : Prop := n = 0%nat \/ exists j, (j <= kt)%nat /\ n = (2 ^ j)%nat.

  Lemma pow2_div j i : (2 ^ j / 2 ^ i = if i <=? j then 2 ^ (j - i) else 0)%nat.
  Proof.
    destruct (Nat.leb_spec i j).
    - replace j with ((j - i) + i)%nat at 1 by lia. rewrite Nat.pow_add_r. apply Nat.div_mul. apply Nat.pow_nonzero. lia.
    - apply Nat.div_small. apply Nat.pow_lt_mono_r; lia.
  Qed.
  Lemma ext_cis n : @cis E n = (Some (fst (@cis F n)), Some (snd (@cis F n))). Proof. reflexivity. Qed.
  Lemma ext_respected : respects Qs Qc pow2_upto.
  Proof.
    split; try (unfold Qs, Qc; cbn [s0 sadd ssub smul Ext lift2]).
    - exact rel_0.
    - intros x [a|] x' [b|] H H'; auto. cbn [lift2]. destruct (cap (a + b)) as [r|] eqn:Ec; auto. destruct (cap_inv _ _ Ec) as [-> Hb]. now apply rel_add.
    - intros x [a|] x' [b|] H H'; auto. cbn [lift2]. destruct (cap (a - b)) as [r|] eqn:Ec; auto. destruct (cap_inv _ _ Ec) as [-> Hb]. now apply rel_sub.
    - intros x [a|] x' y' H (b & -> & H'); auto. destruct (cap (a * b)) as [r|] eqn:Ec; auto. destruct (cap_inv _ _ Ec) as [-> Hb]. now apply rel_mul.
    - exists (1 / 2). split; [reflexivity|exact rel_half].
    - intros n d [->|(j & Hj & ->)] Hn Hd; [congruence|]. right. exists d. rewrite Nat.log2_pow2 in Hd by lia. split; [lia|reflexivity].
    - intros n i [->|(j & Hj & ->)]; [left; apply Nat.div_small; pose proof (pow2_pos i); lia|].
      rewrite pow2_div. destruct (Nat.leb_spec i j); [right; exists (j - i)%nat; split; [lia|reflexivity]|now left].
    - intros n e [->|(j & Hj & ->)] He; [lia|]. destruct (rel_roots j e Hj He) as [[H1 H2] _].
      destruct (spow (@cis A1 (2 ^ j)) e) as [u v]. cbn [fst snd] in *. constructor; eexists; (split; [reflexivity|assumption]).
    - intros n e [->|(j & Hj & ->)] He; [lia|]. destruct (rel_roots j e Hj He) as [_ [H1 H2]].
      destruct (spow (@cis_neg A1 (2 ^ j)) e) as [u v]. cbn [fst snd] in *. constructor; eexists; (split; [reflexivity|assumption]).
  Qed.

  Lemma moderate_rel l l' : Forall2 Qs l l' -> moderate l' = true ->
    Forall2 rel l (map val l') /\ forall x, In x (map val l') -> Rabs x <= 2 ^ 100.
  Proof.
    induction 1 as [|x o l l' H _ IH]; cbn [moderate forallb map]; intros G; [split; [constructor|intros x []]|].
    apply andb_prop in G as [G1 G2]. destruct (IH G2) as [I1 I2]. destruct o as [r|]; [|discriminate]. destruct (Rle_dec _ _) as [Hr|]; [|discriminate].
    split; [constructor; auto|]. intros y [<-|Hy]; auto.
  Qed.
  Lemma none_rel (l : list (sample A1)) n : length l = n -> Forall2 Qs l (repeat (None : sample E) n).
  Proof. intros <-. induction l; cbn; constructor; auto. exact I. Qed.
  Lemma some_rel l l' : Forall2 rel l l' -> Forall2 Qs l (map (@Some R) l').
  Proof. induction 1; cbn; constructor; auto. Qed.
  Lemma ext_transform : rfft_respected Qs R1 ER.
  Proof.
    split; intros k l l' H; cbn [rfft_fwd rfft_inv ext_rfft]; pose proof (F2_length H) as HL.
    - destruct (fits k l') eqn:Ef.
      + unfold fits in Ef. rewrite !andb_true_iff, Nat.ltb_lt, Nat.leb_le, Nat.eqb_eq in Ef. destruct Ef as [[[Hk0 Hk] Hl] Hm].
        destruct (moderate_rel _ _ H Hm) as [G1 G2]. apply some_rel. apply (same_fwd _ _ _ _ _ rel_transform); auto. etransitivity; [exact HL|exact Hl].
      + apply none_rel. apply (same_fwd_length _ _ _ _ _ rel_transform). rewrite repeat_length. exact HL.
    - destruct (fits k l') eqn:Ef.
      + unfold fits in Ef. rewrite !andb_true_iff, Nat.ltb_lt, Nat.leb_le, Nat.eqb_eq in Ef. destruct Ef as [[[Hk0 Hk] Hl] Hm].
        destruct (moderate_rel _ _ H Hm) as [G1 G2]. apply some_rel. apply (same_inv _ _ _ _ _ rel_transform); auto. etransitivity; [exact HL|exact Hl].
      + apply none_rel. apply (same_inv_length _ _ _ _ _ rel_transform). rewrite repeat_length. exact HL.
  Qed.

  (** ** the transformed response *)
  Lemma Qx_Qs x o : Qx x o -> Qs x o. Proof. intros (r & -> & H & _). exact H. Qed.
  Lemma F2_mono2 {X Y} (P P' : X -> Y -> Prop) l l' : (forall x y, P x y -> P' x y) -> Forall2 (Forall2 P) l l' -> Forall2 (Forall2 P') l l'.
  Proof. intros H. induction 1; constructor; auto. eapply Forall2_mono; eauto. Qed.
  Lemma upgrade f f' : RcbG Qs f f' -> (forall c i, exists M, cb M (point f' c i)) -> RcbG Qc f f'.
  Proof.
    intros [n d d' H] G. constructor. unfold point, elem in G. cbn [cb_data] in G.
    induction H as [|l l' d d' Hl Hd IH]; constructor.
    - pose proof (G 0%nat) as G0. cbn [nth] in G0. clear - Hl G0. induction Hl as [|z z' l l' Hz Hl IH]; constructor.
      + destruct (G0 0%nat) as (M & a & b & Ez & _). cbn [nth] in Ez. subst z'. inversion Hz; subst. constructor; eexists; eauto.
      + apply IH. intros i. apply (G0 (S i)).
    - apply IH. intros c i. apply (G (S c) i).
  Qed.
  Lemma Qx_bound ir ir' c j : Forall2 (Forall2 Qx) ir ir' -> rb Xmax (nth j (nth c ir' []) s0).
  Proof.
    intros H. destruct (Nat.lt_ge_cases c (length ir')) as [Hc|Hc].
    2: { rewrite (nth_overflow ir') by exact Hc. destruct j; apply rb_0; unfold Xmax; lra. }
    revert c Hc. induction H as [|l l' ir ir' Hl _ IH]; intros c Hc; [exfalso; exact (Nat.nlt_0_r _ Hc)|].
    destruct c as [|c]; [|apply IH; apply Nat.succ_lt_mono; exact Hc]. cbn [nth]. clear - Hl. revert j.
    induction Hl as [|x o l l' (r & -> & _ & Hr) Hl IH]; intros [|j]; cbn [nth]; auto.
    - apply rb_0; unfold Xmax; lra.
    - apply rb_0; unfold Xmax; lra.
    - exists r. auto.
  Qed.
  Lemma rect_samples {A : arith} (a : audio A) : rect a -> exists m, shaped (length a) m a /\ num_samples a = m.
  Proof.
    intros [Hl (m & Hm)]. exists m. split; [split; auto|]. destruct a as [|x a]; cbn in *; [lia|]. apply Hm. now left.
  Qed.
  Lemma filter_upc n p (ir : audio A1) (ir' : audio E) i : (0 < p)%nat -> (0 < n)%nat -> (exists j, p = 2 ^ j /\ S j <= 12)%nat -> rect ir' ->
    Forall2 (Forall2 Qx) ir ir' ->
    Rres (RcbG Qc) (upc_filter R1 n (next_pow2 (p * 2)) (Nat.log2 (next_pow2 (p * 2))) p ir i)
                   (upc_filter ER n (next_pow2 (p * 2)) (Nat.log2 (next_pow2 (p * 2))) p ir' i).
  Proof.
    intros Hp Hn (j & Ej & Hj) Hr Hir.
    assert (Ek : next_pow2 (p * 2) = (2 ^ S j)%nat).
    { unfold next_pow2. f_equal. apply Nat.log2_up_unique; [lia|]. cbn [Nat.pred Nat.pow]. subst p. pose proof (pow2_pos j). lia. }
    rewrite Ek, Nat.log2_pow2 by lia.
    pose proof (p_upc_filter ext_respected ext_transform n (2 ^ S j) (S j) p i (F2_mono2 _ _ _ _ Qx_Qs Hir)) as G.
    destruct (upc_filter R1 n (2 ^ S j) (S j) p ir i) as [f| |] eqn:E1, (upc_filter ER n (2 ^ S j) (S j) p ir' i) as [f'| |] eqn:Ef;
      try (exfalso; inversion G; fail); constructor.
    assert (Hf : RcbG Qs f f') by (inversion G; assumption). clear G E1. subst p.
    pose proof (upc_filter_inside _ _ _ _ _ _ _ _ Ef) as Hi.
    destruct (rect_samples _ Hr) as (m & Hsh & Em). rewrite Em in Hi.
    destruct (@upc_filter_ok E ER (ext_fwd_len pow Rs HRs) n (2 ^ j) (S j) ir' m i Hn Hp ltac:(lia)) as (f2 & Ef2 & Hs & Hpt); auto.
    { apply Hr. }
    rewrite Ef in Ef2. injection Ef2 as <-. apply upgrade; [exact Hf|]. intros c b. exists (2 ^ 30).
    destruct (Nat.lt_ge_cases c n) as [Hc|Hc]; [destruct (Nat.lt_ge_cases b (2 ^ S j)) as [Hb|Hb]|].
    - rewrite Hpt by auto. apply (bin_b pow Rs HRb); [lia|]. intros q Hq. unfold hpart. destruct (_ <? _)%nat; [|apply rb_0; unfold Xmax; lra].
      unfold ir_fun. eapply Qx_bound; eassumption.
    - unfold point, elem. rewrite nth_overflow; [apply cb_0; lra|]. destruct Hs as [_ [Hs1 Hs2]]. rewrite (Hs2 (nth c (cb_data f') [])); [exact Hb|].
      apply nth_In. lia.
    - unfold point, elem. destruct Hs as [_ [Hs1 Hs2]]. rewrite (nth_overflow (cb_data f')) by lia. destruct b; apply cb_0; lra.
  Qed.
  Lemma filter_multi p (ir : audio A1) (ir' : audio E) i : (exists j, p = 2 ^ S j /\ S (S j) <= kt /\ S (S j) <= 24)%nat -> rect ir' ->
    Forall2 (Forall2 Qx) ir ir' -> Rres (RcbG Qc) (multi_filter p ir i) (multi_filter p ir' i).
  Proof.
    intros (j & Ej & Hj & Hj24) Hr Hir.
    assert (Hok : pow2_upto (2 * p)) by (right; exists (S (S j)); split; [lia|subst p; cbn [Nat.pow]; lia]).
    pose proof (p_multi_filter ext_respected p i Hok (F2_mono2 _ _ _ _ Qx_Qs Hir)) as G.
    destruct (multi_filter p ir i) as [f| |] eqn:E1, (multi_filter p ir' i) as [f'| |] eqn:Ef; try (exfalso; inversion G; fail); constructor.
    assert (Hf : RcbG Qs f f') by (inversion G; assumption). clear G E1. subst p.
    pose proof (multi_filter_inside _ _ _ _ Ef) as Hi.
    destruct (rect_samples _ Hr) as (m & Hsh & Em). rewrite Em in Hi.
    pose proof (@multi_filter_ok E j 1 Nat.lt_0_1 ir' m i (proj1 Hr) Hsh Hi) as Ef2. cbn [Nat.add] in Ef2.
    rewrite Ef in Ef2. apply Ok_inj in Ef2. apply upgrade; [exact Hf|]. intros c b.
    destruct (pow_cap24 (S (S j)) Hj24) as [C1 _]. exists ((13 / 5) ^ S (S j) * Xmax). rewrite Ef2. unfold point, elem. cbn [cb_data].
    assert (P0 : 0 <= (13 / 5) ^ S (S j) * Xmax) by (apply Rmult_le_pos; [apply pow_le; lra|unfold Xmax; lra]).
    destruct (Nat.lt_ge_cases c (length ir')) as [Hc|Hc].
    - rewrite tab_nth by exact Hc. apply (dif_b pow kt tau Htau Hpow); [exact Hj|unfold Xmax; lra| |].
      + unfold Xmax. set (q := (13 / 5) ^ S (S j)) in *. lra.
      + apply Hb_b; [unfold Xmax; lra|]. intros q. eapply Qx_bound; eassumption.
    - rewrite (nth_overflow (tab _ _)) by (now rewrite tab_length). destruct b; apply cb_0; exact P0.
  Qed.

  (** ** the whole convolver *)
  Lemma pieces_layout m (ir : audio E) B : forall l o ds, @pieces E m ir B o l ds -> forall q, In q l ->
    exists s, (0 < s)%nat /\ pl_size q = Z.of_nat (2 ^ s) /\ (2 * (2 ^ s * B) < m)%nat.
  Proof.
    induction l as [|a l IH]; intros o [|d ds] H q Hq; cbn [pieces] in H; try destruct Hq; try tauto.
    - subst a. destruct H as (num & Hs & _ & _ & Ea & _ & Ho & Eo & _). exists (pc_s d). split; [exact Hs|]. split; [exact Ea|]. lia.
    - destruct H as (num & _ & _ & _ & _ & _ & _ & _ & _ & _ & H). eapply IH; eauto.
  Qed.
  Definition okp (p : nat) : Prop := exists j, (p = 2 ^ S j /\ S (S j) <= kt /\ S (S j) <= 24)%nat.
  Definition oku (p : nat) : Prop := exists j, (p = 2 ^ j /\ S j <= 12)%nat.
  Lemma okp_pow p : okp p -> pow2_upto (2 * p).
  Proof. intros (j & -> & H & _). right. exists (S (S j)). split; [exact H|cbn [Nat.pow]; lia]. Qed.
  Lemma sizes_fit m (ir : audio E) e : let n := length ir in
    (5 <= e <= 11)%nat -> (0 < n)%nat -> block_of n m ir -> (0 < m)%nat -> (Z.of_nat m <= 2 ^ 24)%Z ->
    (forall l, GetPartitionScheme kGarciaResults (Z.of_nat (2 ^ e)) (Z.of_nat m) = Ok l ->
       forall q, In q (tl l) -> 2 * (Z.to_nat (pl_size q) * 2 ^ e) <= 2 ^ kt)%nat ->
    sizes_ok okp oku (2 ^ e) m.
  Proof.
    intros n He Hn Hsh Hm H24 Hkt. split; [exists e; split; [reflexivity|lia]|]. intros l El. specialize (Hkt l El).
    pose proof (pow2_pos e) as HB. set (B := (2 ^ e)%nat) in *.
    assert (Ek : next_pow2 (B * 2) = (2 ^ S e)%nat).
    { unfold next_pow2. f_equal. apply Nat.log2_up_unique; [lia|]. cbn [Nat.pred]. fold B. cbn [Nat.pow]. fold B. lia. }
    destruct (@make_any E (ext_zero pow) ER (ext_fwd_len pow Rs HRs) n m ir Hn Hn Hsh Hm H24 B (S e) l HB Ek El)
      as (a & l' & El' & _ & _ & b & nu & Ku & ds & _ & _ & _ & _ & _ & Hp & _).
    subst l. cbn [tl] in *. apply Forall_forall. intros q Hq. destruct (pieces_layout _ _ _ _ _ _ Hp q Hq) as (s & Hs & Es & Hlt).
    specialize (Hkt q Hq). rewrite Es, Nat2Z.id in Hkt. unfold lay_ok. rewrite Es, Nat2Z.id. exists (s + e - 1)%nat.
    assert (E2 : (2 * (2 ^ s * B) = 2 ^ S (s + e))%nat) by (cbn [Nat.pow]; rewrite Nat.pow_add_r; fold B; lia).
    replace (S (s + e - 1)) with (s + e)%nat by lia. split; [|split].
    - now rewrite Nat.pow_add_r.
    - apply (Nat.pow_le_mono_r_iff 2); [lia|]. rewrite <- E2. exact Hkt.
    - apply (Nat.pow_le_mono_r_iff 2); [lia|]. rewrite <- E2. pose proof (m_nat m H24) as Hm'. apply Nat.lt_le_incl. eapply Nat.lt_le_trans; [exact Hlt|exact Hm'].
  Qed.
  Lemma rel_run m (ir : audio A1) (ir' : audio E) M spec e cE : let n := length ir' in
    conv_block_size (Z.of_nat M) (cs_internal spec) = Ok (Z.of_nat (2 ^ e)) ->
    (0 < n)%nat -> block_of n m ir' -> (0 < m)%nat -> (Z.of_nat m <= 2 ^ 24)%Z ->
    (forall l, GetPartitionScheme kGarciaResults (Z.of_nat (2 ^ e)) (Z.of_nat m) = Ok l ->
       forall q, In q (tl l) -> 2 * (Z.to_nat (pl_size q) * 2 ^ e) <= 2 ^ kt)%nat ->
    Forall2 (Forall2 Qx) ir ir' -> conv_make ER ir' M spec = Ok cE ->
    exists c, conv_make R1 ir M spec = Ok c /\
      forall sessions sessions' sE outsE, Forall2 (Forall2 (Forall2 (Forall2 Qs))) sessions sessions' ->
      feed_sessions (conv_process ER) conv_reset cE sessions' = Ok (sE, outsE) ->
      exists s outs, feed_sessions (conv_process R1) conv_reset c sessions = Ok (s, outs) /\
        Forall2 (Forall2 (Forall2 (Forall2 Qs))) outs outsE.
  Proof.
    intros n Eb Hn Hsh Hm H24 Hkt Hir Ec. pose proof (block_size_range _ _ _ Eb) as He.
    assert (Hr : rect ir') by (split; [exact Hn|exists m; apply Hsh]).
    assert (Em : num_samples ir' = m).
    { destruct (rect_samples ir' Hr) as (m' & [_ Hm'] & ->). destruct Hsh as [_ Hsh]. subst n. destruct ir' as [|x ir2]; [cbn in Hn; lia|].
      rewrite <- (Hm' x (or_introl eq_refl)). apply Hsh. now left. }
    pose proof (@p_conv_make_in A1 E Qs Qc Qx pow2_upto ext_respected R1 ER okp oku (fun q => (0 < q)%nat) okp_pow rect (fun a o q b => @rect_sub E a b o q)
                 (fun q p a a' i Hp Hc Ho => filter_upc q p a a' i Hp Hc Ho) filter_multi ir ir' M spec Hn) as G.
    rewrite Em in G.
    specialize (G ltac:(intros b Hb; rewrite Eb in Hb; injection Hb as <-; rewrite Nat2Z.id; now apply (sizes_fit m ir' e)) Hr Hir).
    rewrite Ec in G. inversion G as [c ? Hc Ec'| |]. subst. exists c. split; [now symmetry|].
    intros ss ss' sE outsE Hss Ef.
    pose proof (p_feed_sessions ext_respected ext_transform Hc Hss) as G2. rewrite Ef in G2.
    destruct (feed_sessions (conv_process R1) conv_reset c ss) as [[s outs]| |]; inversion G2 as [? ? Hp| |]; subst.
    inversion Hp; subst. eauto.
  Qed.
End Generic.

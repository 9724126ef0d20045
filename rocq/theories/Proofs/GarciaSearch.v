(** * The search for the cheapest partitions: what it finds *)
From Verif.Model Require Import Base Partitioning GarciaOptimal.
From Verif.Spec Require Import Optimal.
From Verif.Proofs Require Import GarciaProof.

Lemma nth_el_inj t i j : nth_el t i = nth_el t j -> i = j.
Proof. unfold nth_el. intros E. apply el_inj in E as [E1 E2]. pose proof (log2_bounds i). pose proof (log2_bounds j). lia. Qed.
Lemma seq_at_nd t : NoDup (seq_at t).
Proof.
  unfold seq_at. generalize (seq_NoDup (t + 1) 0). induction (seq 0 (t + 1)) as [|i l IH]; intros H; [constructor|].
  inversion H as [|x y H1 H2]; subst. cbn [map]. constructor; auto. intros X. apply in_map_iff in X as (j & E & Hj). apply nth_el_inj in E. subst. contradiction.
Qed.

Section Search.
  Variable unit : Z.
  Variable big : nat -> Z.
  Hypothesis Hunit : (0 < unit)%Z.
  Hypothesis Hbig : forall s, (0 <= big s)%Z.
  Notation tcost := (get_transition_cost unit big).
  Notation cost := (cost unit big).

  (** [ps] is a division whose last partition, of size [s], has its block [q] as block [i] *)
  Definition at_block (i s q : nat) (ps : list nat) : Prop :=
    division ps /\ last ps 0 = s /\ list_sum ps = i + 1 + (s - q) /\ 1 <= q <= s.
  Lemma at_block_in i s q ps : at_block i s q ps -> In (el i s q) (seq_at i).
  Proof.
    intros (D & L & S & Q). apply in_seq_at. exists s, q. pose proof (division_last ps D) as (P1 & P2 & P3). rewrite L in *.
    split; auto. split; auto. split; auto. lia.
  Qed.

  Record inv (t : nat) (g : graph) : Prop := {
    i_sound : forall k c, node_cost g k = Some c -> exists i s q ps, k = (i, el i s q) /\ i <= t /\ at_block i s q ps /\ cost ps = c;
    i_complete : forall i s q ps, i <= t -> at_block i s q ps -> exists c, node_cost g (i, el i s q) = Some c /\ (c <= cost ps)%Z;
    i_none : forall k, node_cost g k = None -> in_edges g k = [];
    i_root : forall e, in_edges g (0, e) = [];
    i_pred : forall i e c, node_cost g (S i, e) = Some c -> exists e1 a w, node_cost g (i, e1) = Some a /\ is_transition_viable e1 e = true /\
      tcost e1 e = Ok w /\ c = (w + a)%Z /\ in_edges g (S i, e) = [((i, e1), (S i, e))] }.

  Definition g_init : graph := {| g_nodes := [((0, (1, 1, 1)), 0%Z)]; g_edges := [] |}.
  Lemma division_sum_1 ps : division ps -> list_sum ps <= last ps 0 -> ps = [1].
  Proof.
    intros [|ps' s H1 H2 H3 H4]; auto. rewrite last_last, list_sum_app. cbn. pose proof (division_last ps' H1) as (P1 & P2 & P3).
    pose proof (pow2_pos _ P1). lia.
  Qed.
  Lemma inv_init : inv 0 g_init.
  Proof.
    constructor.
    - intros k c E. unfold node_cost, g_init in E. cbn [g_nodes find fst] in E. destruct (key_eqb (0, (1, 1, 1)) k) eqn:K; cbn in E; [|discriminate].
      injection E as <-. apply key_eqb_eq in K. exists 0, 1, 1, [1]. split; [now rewrite <- K|]. split; auto. split; [|reflexivity].
      repeat split; try constructor.
    - intros i s q ps Hi (D & L & S & Q). pose proof (division_last ps D) as (P1 & P2 & P3). rewrite L in *.
      assert (i = 0) by lia. subst i. assert (q = s) by lia. subst q. assert (ps = [1]) by (apply division_sum_1; auto; lia).
      subst ps. cbn in L. subst s. exists 0%Z. split; [reflexivity|]. cbn. lia.
    - intros k _. reflexivity.
    - reflexivity.
    - intros i e c E. unfold node_cost, g_init in E. cbn [g_nodes find fst] in E. destruct (key_eqb (0, (1, 1, 1)) (S i, e)) eqn:K; cbn in E; [|discriminate].
      apply key_eqb_eq in K. discriminate.
  Qed.

  (** what a transition does to divisions *)
  Lemma at_block_next t s1 q1 s2 q2 ps : at_block t s1 q1 ps -> pow2 s2 -> 1 <= q2 <= s2 ->
    is_transition_viable (el t s1 q1) (el (S t) s2 q2) = true ->
    exists w, tcost (el t s1 q1) (el (S t) s2 q2) = Ok w /\ exists ps', at_block (S t) s2 q2 ps' /\ cost ps' = (w + cost ps)%Z /\
      (ps' = ps /\ s2 = s1 /\ q2 = q1 + 1 \/ ps' = ps ++ [s2] /\ q1 = s1 /\ q2 = 1).
  Proof.
    intros (D & L & S & Q) P2 Q2 V. apply viable_iff in V; auto. destruct V as [[-> ->]|(-> & -> & V1 & V2)].
    - exists 0%Z. split; [apply tcost_cont; lia|]. exists ps. split; [|split; [lia|now left]]. split; auto. split; auto. split; lia.
    - eexists. split; [apply tcost_start; lia|]. exists (ps ++ [s2]). split.
      + split; [apply division_more; auto; lia|]. rewrite last_last, list_sum_app. cbn. split; auto. split; lia.
      + split; [|now right]. rewrite cost_snoc, L by now apply division_ne. lia.
  Qed.
  Lemma at_block_prev t s q ps : at_block (S t) s q ps ->
    exists s1 q1 ps1, at_block t s1 q1 ps1 /\ is_transition_viable (el t s1 q1) (el (S t) s q) = true /\
      exists w, tcost (el t s1 q1) (el (S t) s q) = Ok w /\ cost ps = (w + cost ps1)%Z.
  Proof.
    intros (D & L & S & Q). destruct (Nat.eq_dec q 1) as [->|Nq].
    - pose proof (division_ne ps D) as NE. pose proof (snoc_ex ps NE) as E. pose proof (sum_snoc ps NE) as ES. rewrite L in *.
      rewrite E in D. apply division_snoc_inv in D as [[E1 ->]|(D & P & H1 & H2)].
      + rewrite E1 in ES. cbn in ES. lia.
      + set (rl := removelast ps) in *. pose proof (division_last rl D) as (P1 & P2 & P3). pose proof (pow2_pos _ P1).
        exists (last rl 0), (last rl 0), rl. split; [|split].
        * split; auto. split; auto. split; lia.
        * apply viable_iff; [lia|lia|]. right. repeat split; lia.
        * eexists. split; [apply tcost_start; lia|]. rewrite E, cost_snoc by now apply division_ne. lia.
    - exists s, (q - 1), ps. split; [|split].
      + split; auto. split; auto. split; lia.
      + apply viable_iff; [lia|lia|]. left. lia.
      + exists 0%Z. replace q with (q - 1 + 1) at 2 by lia. split; [apply tcost_cont; lia|lia].
  Qed.

  Lemma inv_stage t g : inv t g -> exists g', stage_step unit big (seq_at t, g) (S t) = Ok (seq_at (S t), g') /\ inv (S t) g'.
  Proof.
    intros I. unfold stage_step. rewrite next_sequence. cbn [bind].
    assert (FR : forall e, node_cost g (S t, e) = None /\ in_edges g (S t, e) = []).
    { intros e. assert (E : node_cost g (S t, e) = None).
      { destruct (node_cost g (S t, e)) as [c|] eqn:E; auto. destruct (i_sound _ _ I _ _ E) as (i & s & q & ps & K & Hi & _). injection K as <- _. lia. }
      split; auto. now apply (i_none _ _ I). }
    destruct (layer_visits unit big g (S t) (Nat.lt_0_succ t) (seq_at (S t)) (seq_at_nd (S t)) (seq_at t) [] g) as (g' & E & L).
    - now apply layer_init.
    - apply seq_at_nd.
    - intros e1 e2 H1 H2 V. apply in_seq_at in H1 as (s1 & q1 & -> & P1 & Q1 & S1). apply in_seq_at in H2 as (s2 & q2 & -> & P2 & Q2 & S2).
      apply viable_iff in V; auto. destruct V as [[-> ->]|(-> & -> & V1 & V2)]; eexists; [apply tcost_cont; lia|apply tcost_start; lia].
    - intros e1 e2 _ [].
    - rewrite E. cbn [bind]. exists g'. split; [reflexivity|]. cbn [app] in L.
      assert (CA : forall e2 e1 c, cand unit big g (S t) (pairs (seq_at (S t)) (seq_at t)) e2 e1 c <->
                     In e1 (seq_at t) /\ In e2 (seq_at (S t)) /\ is_transition_viable e1 e2 = true /\
                     exists a w, node_cost g (t, e1) = Some a /\ tcost e1 e2 = Ok w /\ c = (w + a)%Z).
      { intros e2 e1 c. unfold cand. rewrite (in_pairs big t). replace (S t - 1) with t by lia. tauto. }
      constructor.
      + intros [j e] c Ek. destruct (Nat.eq_dec j (S t)) as [->|Nj].
        * destruct (la_some _ _ _ _ _ _ L _ _ Ek) as [(e1 & C1 & _) _]. apply CA in C1 as (M1 & M2 & V & a & w & A1 & A2 & ->).
          destruct (i_sound _ _ I _ _ A1) as (i & s1 & q1 & ps & K & Hi & AB & <-). injection K as <- ->.
          apply in_seq_at in M2 as (s2 & q2 & -> & P2 & Q2 & S2).
          destruct (at_block_next t s1 q1 s2 q2 ps AB P2 Q2 V) as (w' & W1 & ps' & AB' & CE & _). rewrite W1 in A2. injection A2 as <-.
          exists (S t), s2, q2, ps'. auto.
        * rewrite (la_cost _ _ _ _ _ _ L) in Ek by exact Nj. destruct (i_sound _ _ I _ _ Ek) as (i & s & q & ps & K & Hi & AB & Ec). exists i, s, q, ps. auto.
      + intros i s q ps Hi AB. destruct (Nat.eq_dec i (S t)) as [->|Ni].
        * destruct (at_block_prev t s q ps AB) as (s1 & q1 & ps1 & AB1 & V & w & W & EC).
          destruct (i_complete _ _ I t s1 q1 ps1 (le_n t) AB1) as (a & A1 & A2).
          assert (C : cand unit big g (S t) (pairs (seq_at (S t)) (seq_at t)) (el (S t) s q) (el t s1 q1) (w + a)).
          { apply CA. split; [eapply at_block_in; eauto|]. split; [eapply at_block_in; eauto|]. split; auto. exists a, w. auto. }
          destruct (node_cost g' (S t, el (S t) s q)) as [c|] eqn:Ek.
          -- exists c. split; auto. destruct (la_some _ _ _ _ _ _ L _ _ Ek) as [_ M]. specialize (M _ _ C). lia.
          -- destruct (la_none _ _ _ _ _ _ L _ Ek) as [_ M]. exfalso. exact (M _ _ C).
        * rewrite (la_cost _ _ _ _ _ _ L) by exact Ni. apply (i_complete _ _ I); auto. lia.
      + intros [j e] Ek. destruct (Nat.eq_dec j (S t)) as [->|Nj].
        * apply (la_none _ _ _ _ _ _ L _ Ek).
        * rewrite (la_cost _ _ _ _ _ _ L) in Ek by exact Nj. rewrite (la_edges _ _ _ _ _ _ L) by exact Nj. now apply (i_none _ _ I).
      + intros e. rewrite (la_edges _ _ _ _ _ _ L) by (cbn [fst]; lia). apply (i_root _ _ I).
      + intros i e c Ek. destruct (Nat.eq_dec i t) as [->|Ni].
        * destruct (la_some _ _ _ _ _ _ L _ _ Ek) as [(e1 & C1 & IE) _]. apply CA in C1 as (M1 & M2 & V & a & w & A1 & A2 & ->).
          exists e1, a, w. rewrite (la_cost _ _ _ _ _ _ L) by (cbn [fst]; lia). replace (S t - 1) with t in IE by lia. auto.
        * assert (N2 : fst (S i, e) <> S t) by (cbn [fst]; lia). rewrite (la_cost _ _ _ _ _ _ L) in Ek by exact N2.
          destruct (i_pred _ _ I _ _ _ Ek) as (e1 & a & w & A1 & A2 & A3 & A4 & A5). exists e1, a, w.
          rewrite (la_edges _ _ _ _ _ _ L) by exact N2. rewrite (la_cost _ _ _ _ _ _ L).
          -- auto.
          -- cbn [fst]. intros ->. destruct (i_sound _ _ I _ _ Ek) as (i' & s & q & ps & K & Hi & _). injection K as <- _. lia.
  Qed.

  Lemma inv_stages m : forall t g, inv t g -> exists g', foldM (stage_step unit big) (seq (S t) m) (seq_at t, g) = Ok (seq_at (t + m), g') /\ inv (t + m) g'.
  Proof.
    induction m as [|m IH]; intros t g I; cbn [seq foldM].
    - exists g. rewrite Nat.add_0_r. auto.
    - destruct (inv_stage t g I) as (g1 & E1 & I1). rewrite E1. cbn [bind]. destruct (IH (S t) g1 I1) as (g2 & E2 & I2).
      exists g2. replace (t + S m) with (S t + m) by lia. auto.
  Qed.
  Lemma build_ok n : 0 < n -> exists g, build_graph unit big n = Ok g /\ inv (n - 1) g.
  Proof.
    intros Hn. destruct (inv_stages (n - 1) 0 g_init inv_init) as (g & E & I).
    assert (EQ : build_graph unit big n = (st <- foldM (stage_step unit big) (seq 1 (n - 1)) (seq_at 0, g_init) ;; (let '(_, g) := st in Ok g))) by reflexivity.
    rewrite EQ, E. cbn [bind]. exists g. auto.
  Qed.

  (** ** No dead ends *)
  Lemma sum_small l b : Forall (fun s => s <= b) l -> length l <= 1 -> list_sum l <= b.
  Proof. destruct l as [|x [|y l]]; intros H HL; cbn in *; [lia| |lia]. inversion H; lia. Qed.
  Lemma dearer i s s1 ps1 ps : at_block i s s ps -> at_block i s1 s1 ps1 -> s1 < s ->
    exists ps', at_block i s s ps' /\ (cost ps' < cost ps1 + big s)%Z.
  Proof.
    intros (D & L & S & Q) (D1 & L1 & S1 & Q1) Hlt.
    pose proof (division_last ps D) as (P & _ & _). pose proof (division_last ps1 D1) as (P1 & _ & _). rewrite L in P. rewrite L1 in P1.
    assert (H3 : 2 * s <= i + 1 - s + 1 /\ s <= i + 1).
    { pose proof (division_ne ps D) as NE. pose proof (snoc_ex ps NE) as E. pose proof (sum_snoc ps NE) as ES. rewrite L in *. rewrite E in D.
      apply division_snoc_inv in D as [[_ ->]|(_ & _ & _ & H)]; lia. }
    destruct (pow2_divides s1 s P1 P ltac:(lia)) as [m Em].
    destruct (division_cut ps1 D1 s m) as (pa & pb & EA & DA & SB & CA); [lia|rewrite L1; exact Em|lia|].
    assert (SA : list_sum pa = i + 1 - s) by (rewrite EA, list_sum_app in S1; lia).
    assert (F : Forall (fun x => pow2 x /\ x <= s1) ps1) by (rewrite <- L1; now apply division_sizes).
    rewrite EA in F. apply Forall_app in F as [FA FB].
    assert (LA : last pa 0 <= s1).
    { pose proof (division_ne pa DA) as NE. rewrite (snoc_ex pa NE) in FA. apply Forall_app in FA as [_ FA]. inversion FA as [|x y H _]; subst. apply H. }
    assert (LB : 2 <= length pb).
    { destruct (le_lt_dec 2 (length pb)) as [|LT]; auto. assert (list_sum pb <= s1); [|lia]. apply sum_small; [|lia]. eapply Forall_impl; [|exact FB]. tauto. }
    exists (pa ++ [s]). split.
    - split; [apply division_more; auto; lia|]. rewrite last_last, list_sum_app. cbn. repeat split; lia.
    - rewrite cost_snoc by now apply division_ne. destruct (Nat.eqb_spec s (last pa 0)); [lia|].
      specialize (CA unit big ltac:(lia) Hbig). nia.
  Qed.

  Lemma goes_on t g i e c : inv t g -> node_cost g (i, e) = Some c -> i < t -> exists b, In ((i, e), b) (g_edges g).
  Proof.
    intros I E Hi. destruct (i_sound _ _ I _ _ E) as (i' & s & q & ps & K & _ & AB & EC). injection K as <- ->.
    destruct AB as (D & L & S & Q). pose proof (division_last ps D) as (P & P2 & _). rewrite L in P, P2.
    destruct (Nat.eq_dec q s) as [->|Nq].
    - assert (AB' : at_block (Datatypes.S i) s 1 (ps ++ [s])).
      { split; [apply division_more; auto; lia|]. rewrite last_last, list_sum_app. cbn. repeat split; lia. }
      destruct (i_complete _ _ I (Datatypes.S i) s 1 _ Hi AB') as (c' & E' & LE).
      destruct (i_pred _ _ I _ _ _ E') as (e1 & a & w & A1 & A2 & A3 & A4 & A5).
      destruct (i_sound _ _ I _ _ A1) as (i' & s1 & q1 & ps1 & K & _ & AB1 & EC1). injection K as <- ->.
      destruct AB1 as (D1 & L1 & S1 & Q1). pose proof (proj1 (viable_iff i s1 q1 s 1 Q1 ltac:(lia)) A2) as [[-> V]|(_ & -> & V1 & V2)]; [lia|].
      destruct (Nat.eq_dec s1 s) as [->|Ns].
      + exists (Datatypes.S i, el (Datatypes.S i) s 1). eapply proj1. apply in_edges_in. rewrite A5. now left.
      + exfalso. rewrite tcost_start in A3 by lia. injection A3 as <-. destruct (Nat.eqb_spec s s1) as [|_]; [lia|].
        destruct (dearer i s s1 ps1 ps) as (ps' & AB2 & LT); [repeat split; auto; lia|repeat split; auto; lia|lia|].
        assert (AB3 : at_block (Datatypes.S i) s 1 (ps' ++ [s])).
        { destruct AB2 as (D2 & L2 & S2 & Q2). split; [apply division_more; auto; lia|]. rewrite last_last, list_sum_app. cbn. repeat split; lia. }
        destruct (i_complete _ _ I _ _ _ _ Hi AB3) as (c2 & E2 & LE2). rewrite E' in E2. injection E2 as <-.
        destruct AB2 as (D2 & L2 & _). rewrite cost_snoc, L2, Nat.eqb_refl in LE2 by now apply division_ne. lia.
    - assert (AB' : at_block (Datatypes.S i) s (q + 1) ps) by (repeat split; auto; lia).
      destruct (i_complete _ _ I (Datatypes.S i) s (q + 1) _ Hi AB') as (c' & E' & LE).
      destruct (i_pred _ _ I _ _ _ E') as (e1 & a & w & A1 & A2 & A3 & A4 & A5).
      destruct (i_sound _ _ I _ _ A1) as (i' & s1 & q1 & ps1 & K & _ & AB1 & EC1). injection K as <- ->.
      destruct AB1 as (D1 & L1 & S1 & Q1). pose proof (proj1 (viable_iff i s1 q1 s (q + 1) Q1 ltac:(lia)) A2) as [[-> V]|(V & _)]; [|lia].
      assert (q1 = q) by lia. subst q1. exists (Datatypes.S i, el (Datatypes.S i) s1 (q + 1)). eapply proj1. apply in_edges_in. rewrite A5. now left.
  Qed.

  Lemma has_node_in g k c : node_cost g k = Some c -> In k (map fst (g_nodes g)).
  Proof.
    unfold node_cost. destruct (find _ (g_nodes g)) as [n|] eqn:F; [|discriminate]. intros _. apply find_some in F as [F1 F2]. apply key_eqb_eq in F2. subst k.
    now apply in_map.
  Qed.
  Lemma in_has_node g k : In k (map fst (g_nodes g)) -> exists c, node_cost g k = Some c.
  Proof.
    intros H. apply in_map_iff in H as (n & <- & H). unfold node_cost. destruct (find _ (g_nodes g)) as [m|] eqn:F; [eexists; reflexivity|].
    apply find_none with (x := n) in F; auto. rewrite key_eqb_refl in F. discriminate.
  Qed.

  (** the leafs are the nodes of the last stage *)
  Lemma leafs_iff t g k : inv t g -> 0 < t -> In k (get_graph_leafs g) <-> fst k = t /\ exists c, node_cost g k = Some c.
  Proof.
    intros I Ht. unfold get_graph_leafs. rewrite filter_In, andb_true_iff, negb_true_iff, Nat.eqb_neq, Nat.eqb_eq. split.
    - intros (H1 & H2 & H3). apply in_has_node in H1 as [c H1]. split; [|now exists c]. destruct k as [i e]. cbn [fst].
      destruct (i_sound _ _ I _ _ H1) as (i' & s & q & ps & K & Hi & _). injection K as <- _.
      destruct (Nat.eq_dec i t) as [|N]; auto. destruct (goes_on t g i e c I H1 ltac:(lia)) as [b Hb].
      apply length_zero_iff_nil in H3. assert (X : In ((i, e), b) (out_edges g (i, e))) by (apply filter_In; split; [exact Hb|apply key_eqb_refl]).
      rewrite H3 in X. destruct X.
    - destruct k as [i e]. cbn [fst]. intros (-> & c & H1). split; [eapply has_node_in; eauto|]. destruct t as [|t']; [lia|]. split.
      + destruct (i_pred _ _ I _ _ _ H1) as (e1 & a & w & _ & _ & _ & _ & A5). rewrite A5. discriminate.
      + apply length_zero_iff_nil. destruct (out_edges g (S t', e)) as [|[a b] l] eqn:O; auto. exfalso.
        assert (X : In (a, b) (out_edges g (S t', e))) by (rewrite O; now left). apply filter_In in X as [X1 X2]. apply key_eqb_eq in X2. cbn [fst] in X2. subst a.
        assert (Y : In ((S t', e), b) (in_edges g b)) by (apply in_edges_in; auto).
        destruct (node_cost g b) as [cb|] eqn:Eb; [|rewrite (i_none _ _ I _ Eb) in Y; destruct Y]. destruct b as [[|j] eb]; [rewrite (i_root _ _ I) in Y; destruct Y|].
        destruct (i_pred _ _ I _ _ _ Eb) as (e1 & a & w & _ & _ & _ & _ & A5). rewrite A5 in Y. destruct Y as [Y|[]]. injection Y as -> _.
        destruct (i_sound _ _ I _ _ Eb) as (i' & s & q & ps & K & Hi & _). injection K as <- _. lia.
  Qed.

  (** ** The choice *)
  Lemma choose_ok g l : (forall k, In k l -> exists c, node_cost g k = Some c) -> forall b bl,
    (match b with None => bl = [] | Some c => bl <> [] /\ forall k, In k bl -> node_cost g k = Some c end) ->
    exists b' bl', foldM (choose g) l (b, bl) = Ok (b', bl') /\ (l <> [] \/ bl <> [] -> bl' <> []) /\
      (forall k, In k bl' -> In k bl \/ In k l) /\
      forall k, In k bl' -> exists c, b' = Some c /\ node_cost g k = Some c /\ (forall k' c', In k' l -> node_cost g k' = Some c' -> (c <= c')%Z) /\
        (forall c', b = Some c' -> (c <= c')%Z).
  Proof.
    induction l as [|k l IH]; intros H b bl HB; cbn [foldM].
    - exists b, bl. split; [reflexivity|]. split; [intros [X|X]; [now contradiction X|exact X]|]. split; auto. intros k Hk.
      destruct b as [c|]; [|subst bl; destruct Hk]. exists c. destruct HB as [_ HB]. repeat split; auto; [intros k' c' []|]. intros c' E. injection E as ->. lia.
    - destruct (H k (or_introl eq_refl)) as [ck Ek]. unfold choose at 1. rewrite Ek. assert (H' : forall x, In x l -> exists c, node_cost g x = Some c) by (intros x Hx; apply H; now right).
      assert (STEP : exists b1 bl1, (match b with None => Ok (Some ck, bl ++ [k]) | Some b0 => if (ck <=? b0)%Z then Ok (Some ck, (if (ck <? b0)%Z then [] else bl) ++ [k]) else Ok (Some b0, bl) end) = Ok (Some b1, bl1) /\
                bl1 <> [] /\ (forall x, In x bl1 -> node_cost g x = Some b1) /\ (forall x, In x bl1 -> In x bl \/ x = k) /\ (b1 <= ck)%Z /\ (forall c', b = Some c' -> (b1 <= c')%Z)).
      { destruct b as [b0|].
        - destruct HB as [HB1 HB2]. destruct (Z.leb_spec ck b0) as [LE|LT].
          + exists ck, ((if (ck <? b0)%Z then [] else bl) ++ [k]). split; [reflexivity|]. split; [destruct (if (ck <? b0)%Z then [] else bl); discriminate|].
            destruct (Z.ltb_spec ck b0) as [L2|L2]; cbn [app].
            * split; [intros x [<-|[]]; exact Ek|]. split; [intros x [<-|[]]; auto|]. split; [lia|]. intros c' E. injection E as <-. lia.
            * assert (ck = b0) by lia. subst b0. split; [intros x Hx; apply in_app_or in Hx as [Hx|[<-|[]]]; auto|].
              split; [intros x Hx; apply in_app_or in Hx as [Hx|[<-|[]]]; auto|]. split; [lia|]. intros c' E. injection E as <-. lia.
          + exists b0, bl. split; [reflexivity|]. split; auto. split; auto. split; auto. split; [lia|]. intros c' E. injection E as <-. lia.
        - subst bl. exists ck, [k]. split; [reflexivity|]. split; [discriminate|]. split; [intros x [<-|[]]; exact Ek|]. split; [intros x [<-|[]]; auto|]. split; [lia|]. intros c' E. discriminate E. }
      destruct STEP as (b1 & bl1 & E1 & N1 & C1 & M1 & G1 & G2). rewrite E1. cbn [bind].
      destruct (IH H' (Some b1) bl1 (conj N1 C1)) as (b2 & bl2 & E2 & N2 & M2 & P2). exists b2, bl2. split; [exact E2|]. split; [intros _; apply N2; now right|]. split.
      + intros x Hx. apply M2 in Hx as [Hx|Hx]; [|right; now right]. apply M1 in Hx as [Hx| ->]; [now left|right; now left].
      + intros x Hx. destruct (P2 x Hx) as (c & A1 & A2 & A3 & A4). exists c. specialize (A4 b1 eq_refl). repeat split; auto.
        * intros k' c' [<-|Hk'] E; [rewrite Ek in E; injection E as <-; lia|now apply (A3 k')].
        * intros c' E. specialize (G2 c' E). lia.
  Qed.

  (** ** The way back *)
  Definition expand (ps : list nat) : list nat := flat_map (fun s => repeat s s) ps.
  Lemma expand_app a b : expand (a ++ b) = expand a ++ expand b. Proof. apply flat_map_app. Qed.
  Definition size_of (k : key) : nat := snd (fst (snd k)).

  Lemma trace_ok t g : inv t g -> forall i e c fuel tr, node_cost g (i, e) = Some c -> i <= fuel ->
    exists path s q ps0, trace_from fuel g tr (i, e) = Ok (tr ++ path) /\ e = el i s q /\ at_block i s q (ps0 ++ [s]) /\ cost (ps0 ++ [s]) = c /\
      map size_of (rev ((i, e) :: path)) = expand ps0 ++ repeat s q.
  Proof.
    intros I. induction i as [|i IH]; intros e c fuel tr E Hf.
    - destruct (i_sound _ _ I _ _ E) as (i' & s & q & ps & K & _ & AB & EC). injection K as <- ->.
      destruct AB as (D & L & S & Q). assert (ps = [1]) by (apply division_sum_1; auto; pose proof (division_last ps D) as (_ & P & _); lia). subst ps. cbn in L. subst s.
      assert (q = 1) by lia. subst q. exists [], 1, 1, []. rewrite app_nil_r. unfold trace_from. destruct fuel; rewrite (i_root _ _ I); repeat split; auto.
    - destruct fuel as [|fuel]; [lia|]. destruct (i_pred _ _ I _ _ _ E) as (e1 & a & w & A1 & A2 & A3 & -> & A5).
      cbn [trace_from]. rewrite A5. destruct (IH e1 a fuel (tr ++ [(i, e1)]) A1 ltac:(lia)) as (path & s1 & q1 & ps0 & T1 & -> & AB1 & C1 & M1).
      exists ((i, el i s1 q1) :: path).
      destruct (i_sound _ _ I _ _ E) as (i' & s & q & ps & K & _ & AB & EC). injection K as <- ->.
      destruct AB as (D & L & S & Q). pose proof (division_last ps D) as (P & P2 & _). rewrite L in P.
      destruct (at_block_next i s1 q1 s q _ AB1 P Q A2) as (w' & W & ps' & AB' & CE & CS). rewrite W in A3. injection A3 as <-. rewrite C1 in CE.
      assert (MR : map size_of (rev ((Datatypes.S i, el (Datatypes.S i) s q) :: (i, el i s1 q1) :: path)) = (expand ps0 ++ repeat s1 q1) ++ [s]).
      { change (rev ((Datatypes.S i, el (Datatypes.S i) s q) :: (i, el i s1 q1) :: path)) with (rev ((i, el i s1 q1) :: path) ++ [(Datatypes.S i, el (Datatypes.S i) s q)]).
        rewrite map_app. refine (f_equal2 (@app nat) M1 _). reflexivity. }
      destruct CS as [(-> & -> & ->)|(-> & -> & ->)].
      + exists s1, (q1 + 1), ps0. split; [refine (eq_trans T1 _); rewrite <- app_assoc; reflexivity|]. split; auto. split; auto. split; auto. rewrite MR, <- app_assoc. f_equal.
        now rewrite repeat_app.
      + exists s, 1, (ps0 ++ [s1]). split; [refine (eq_trans T1 _); rewrite <- app_assoc; reflexivity|]. split; auto. split; auto. split; auto. rewrite MR, expand_app. cbn [expand flat_map repeat].
        now rewrite app_nil_r.
  Qed.
  Lemma ones i : division (repeat 1 (S i)) /\ list_sum (repeat 1 (S i)) = S i /\ last (repeat 1 (S i)) 0 = 1.
  Proof.
    induction i as [|i (IH1 & IH2 & IH3)]; [repeat split; constructor|].
    assert (RE : repeat 1 (S (S i)) = repeat 1 (S i) ++ [1]) by (rewrite <- repeat_cons; reflexivity).
    rewrite RE, last_last, list_sum_app, IH2. split; [|split; [cbn; lia|reflexivity]]. apply division_more; auto; [now exists 0|lia|lia].
  Qed.
  Lemma enough_fuel t g : inv t g -> t <= length (g_nodes g).
  Proof.
    intros I. set (l := map (fun i => (i, el i 1 1)) (seq 0 (S t))).
    assert (ND : NoDup l).
    { unfold l. generalize (seq_NoDup (S t) 0). induction (seq 0 (S t)) as [|i m IH]; intros H; [constructor|]. inversion H as [|x y H1 H2]; subst.
      cbn [map]. constructor; auto. intros X. apply in_map_iff in X as (j & E & Hj). injection E as -> _. contradiction. }
    assert (IN : incl l (map fst (g_nodes g))).
    { intros k Hk. apply in_map_iff in Hk as (i & <- & Hi). apply in_seq in Hi.
      assert (AB : at_block i 1 1 (repeat 1 (i + 1))).
      { rewrite Nat.add_1_r. destruct (ones i) as (D1 & D2 & D3). repeat split; auto; lia. }
      destruct (i_complete _ _ I i 1 1 _ ltac:(lia) AB) as (c & E & _). eapply has_node_in; eauto. }
    pose proof (NoDup_incl_length ND IN) as H. unfold l in H. rewrite !map_length, seq_length in H. lia.
  Qed.

  (** ** Counting *)
  Lemma count_new k d : ~ In k (map fst d) -> count k d = d ++ [(k, 1)].
  Proof.
    induction d as [|[k' n] d IH]; intros H; [reflexivity|]. cbn [count app]. destruct (Nat.eqb_spec k k') as [->|]; [exfalso; apply H; now left|].
    rewrite IH; auto. intros X. apply H. now right.
  Qed.
  Lemma count_again k n d : ~ In k (map fst d) -> count k (d ++ [(k, n)]) = d ++ [(k, S n)].
  Proof.
    induction d as [|[k' m] d IH]; intros H; cbn [count app]; [now rewrite Nat.eqb_refl|]. destruct (Nat.eqb_spec k k') as [->|]; [exfalso; apply H; now left|].
    rewrite IH; auto. intros X. apply H. now right.
  Qed.
  Variable latency : nat.
  Hypothesis Hlat : 0 < latency.
  Definition counts (l : list nat) : list (nat * nat) := fold_left (fun d s => count (s * latency) d) l [].
  Lemma counts_app a b : counts (a ++ b) = fold_left (fun d s => count (s * latency) d) b (counts a).
  Proof. apply fold_left_app. Qed.
  Lemma counts_repeat s m : forall d n, ~ In (s * latency) (map fst d) ->
    fold_left (fun d s => count (s * latency) d) (repeat s m) (d ++ [(s * latency, n)]) = d ++ [(s * latency, n + m)].
  Proof.
    induction m as [|m IH]; intros d n H; cbn [repeat fold_left]; [now rewrite Nat.add_0_r|]. rewrite count_again by exact H. rewrite IH by exact H.
    now replace (S n + m) with (n + S m) by lia.
  Qed.
  Definition undo (d : list (nat * nat)) : list nat := flat_map (fun e => repeat (fst e) (snd e)) d.
  Definition scale (e : nat * nat) : nat * nat := (fst e * latency, snd e * fst e).

  Lemma counts_division ps : division ps -> forall ps0 s q, ps = ps0 ++ [s] -> 1 <= q <= s ->
    exists d m, undo (d ++ [(s, m + 1)]) = ps /\ Forall (fun e => 1 <= fst e < s) d /\ counts (expand ps0 ++ repeat s q) = map scale d ++ [(s * latency, m * s + q)].
  Proof.
    intros D. induction D as [|ps1 s1 D IH P LE CL]; intros ps0 s q E Q.
    - destruct ps0 as [|x [|y ps0]]; try discriminate E. cbn in E. injection E as <-. assert (q = 1) by lia. subst q. exists [], 0. repeat split; auto.
    - apply app_inj_tail in E as [<- <-]. pose proof (division_ne ps1 D) as NE. pose proof (snoc_ex ps1 NE) as ES.
      pose proof (division_last ps1 D) as (P1 & _ & _). pose proof (pow2_pos _ P1) as Hp. set (s0 := last ps1 0) in *. set (r := removelast ps1) in *.
      destruct (IH r s0 s0 ES ltac:(lia)) as (d & m & U & F & C).
      assert (EX : expand ps1 = expand r ++ repeat s0 s0) by (rewrite ES, expand_app; cbn [expand flat_map]; now rewrite app_nil_r).
      rewrite counts_app, EX, C.
      assert (NI : forall x, s0 <= x -> ~ In (x * latency) (map fst (map scale d))).
      { intros x Hx X. rewrite map_map in X. apply in_map_iff in X as (e & Ee & He). rewrite Forall_forall in F. specialize (F e He). unfold scale in Ee. cbn [fst] in Ee. nia. }
      destruct (Nat.eq_dec s1 s0) as [->|N].
      + exists d, (m + 1). split; [|split; [exact F|]].
        * rewrite <- U. unfold undo. rewrite !flat_map_app. cbn [flat_map fst snd]. rewrite !app_nil_r, <- app_assoc, (repeat_app s0 (m + 1) 1). reflexivity.
        * rewrite counts_repeat by (apply NI; lia). do 2 f_equal. f_equal. lia.
      + exists (d ++ [(s0, m + 1)]), 0. split; [|split].
        * unfold undo in *. rewrite flat_map_app, U. reflexivity.
        * apply Forall_app. split; [|repeat constructor; cbn; lia]. eapply Forall_impl; [|exact F]. cbn. lia.
        * destruct q as [|q]; [lia|]. cbn [repeat fold_left]. rewrite map_app. cbn [map].
          assert (SC : scale (s0, m + 1) = (s0 * latency, m * s0 + s0)) by (unfold scale; cbn [fst snd]; f_equal; lia). rewrite SC.
          assert (NI2 : ~ In (s1 * latency) (map fst (map scale d ++ [(s0 * latency, m * s0 + s0)]))).
          { rewrite map_app. intros X. apply in_app_or in X as [X|[X|[]]]; [revert X; apply NI; lia|]. cbn [fst] in X. nia. }
          rewrite count_new by exact NI2. rewrite counts_repeat by exact NI2. reflexivity.
  Qed.
  Lemma ceil_exact m s : 1 <= s -> ceil_div (m * s) s = m.
  Proof. intros H. unfold ceil_div. rewrite Nat.add_comm, Nat.div_add, Nat.div_small by lia. reflexivity. Qed.
  Lemma ceil_last m s q : 1 <= q <= s -> ceil_div (m * s + q) s = m + 1.
  Proof. intros H. unfold ceil_div. replace (m * s + q + (s - 1)) with (q - 1 + (m + 1) * s) by nia. rewrite Nat.div_add, Nat.div_small by lia. reflexivity. Qed.

  Lemma normalise_counts bt : normalise latency bt = map (fun e => (fst e, ceil_div (snd e) (fst e / latency))) (counts (map size_of bt)).
  Proof.
    unfold normalise, counts. f_equal. generalize (@nil (nat * nat)). induction bt as [|[i [[n s] q]] bt IH]; intros d; [reflexivity|]. cbn [fold_left map]. apply IH.
  Qed.
  Lemma partitions_normalise ps0 s q bt n : division (ps0 ++ [s]) -> 1 <= q <= s -> map size_of bt = expand ps0 ++ repeat s q ->
    partitions (ps_layout (to_scheme latency n (normalise latency bt))) = ps0 ++ [s].
  Proof.
    intros D Q E. rewrite normalise_counts, E. destruct (counts_division _ D ps0 s q eq_refl Q) as (d & m & U & F & C). rewrite C, <- U.
    unfold to_scheme, partitions. cbn [ps_layout]. rewrite map_map, flat_map_concat_map, map_map. unfold undo. rewrite flat_map_concat_map, !map_app, !concat_app. f_equal.
    - f_equal. rewrite map_map. apply map_ext_in. intros e He. rewrite Forall_forall in F. specialize (F e He). unfold scale. cbn [fst snd pl_size pl_num].
      rewrite !Nat2Z.id, Nat.div_mul, ceil_exact by lia. reflexivity.
    - cbn [map concat fst snd pl_size pl_num]. rewrite !Nat2Z.id, Nat.div_mul, ceil_last by lia. reflexivity.
  Qed.

  (** ** All together *)
  Theorem find_optimum_cheapest size : 2 * latency <= size ->
    exists results, find_optimum unit big latency size = Ok results /\ results <> [] /\
      Forall (fun r => cheapest unit big (size / latency) (partitions (ps_layout (to_scheme latency size r)))) results.
  Proof.
    intros Hs. unfold find_optimum. destruct (Nat.eqb_spec latency 0) as [|_]; [lia|].
    assert (HN : 2 <= size / latency) by (apply Nat.div_le_lower_bound; lia). set (N := size / latency) in *.
    destruct (build_ok N ltac:(lia)) as (g & E & I). rewrite E. cbn [bind].
    assert (LF : forall k, In k (get_graph_leafs g) -> exists c, node_cost g k = Some c) by (intros k Hk; apply (leafs_iff (N - 1) g k I ltac:(lia)) in Hk; apply Hk).
    destruct (choose_ok g _ LF None [] eq_refl) as (b & bl & E2 & NE & IN & CH). rewrite E2. cbn [bind].
    assert (TR : forall k, In k bl -> exists bt, trace_backward g k = Ok bt /\ cheapest unit big N (partitions (ps_layout (to_scheme latency size (normalise latency bt))))).
    { intros k Hk. destruct (CH k Hk) as (c & _ & Ec & MIN & _). destruct (IN k Hk) as [[]|Hl].
      apply (leafs_iff (N - 1) g k I ltac:(lia)) in Hl as [Ek _]. destruct k as [i e]. cbn [fst] in Ek. subst i.
      destruct (trace_ok _ _ I (N - 1) e c (length (g_nodes g)) [(N - 1, e)] Ec (enough_fuel _ _ I)) as (path & s & q & ps0 & T & -> & AB & EC & M).
      exists (rev ((N - 1, el (N - 1) s q) :: path)). split; [unfold trace_backward; refine (eq_trans (f_equal (fun x => bind x (fun t => Ok (rev t))) T) _); reflexivity|].
      destruct AB as (D & L & S & Q). rewrite (partitions_normalise ps0 s q) by auto. split; auto. split.
      - unfold covers. rewrite removelast_last. rewrite list_sum_app in *. cbn [list_sum fold_right] in *. lia.
      - intros ps' D' [C1 C2]. rewrite EC. pose proof (division_ne ps' D') as NE'. pose proof (sum_snoc ps' NE') as SS.
        assert (AB : at_block (N - 1) (last ps' 0) (N - list_sum (removelast ps')) ps') by (repeat split; auto; lia).
        destruct (i_complete _ _ I _ _ _ _ (le_n _) AB) as (c' & E' & LE). eapply Z.le_trans; [|exact LE]. eapply MIN; [|exact E'].
        apply (leafs_iff (N - 1) g _ I ltac:(lia)). split; [reflexivity|]. now exists c'. }
    assert (MM : forall l, incl l bl -> exists bts, mapM (trace_backward g) l = Ok bts /\ length bts = length l /\
                  Forall (fun bt => cheapest unit big N (partitions (ps_layout (to_scheme latency size (normalise latency bt))))) bts).
    { induction l as [|k l IH]; intros HI; [exists []; repeat split; constructor|]. destruct (TR k (HI k (or_introl eq_refl))) as (bt & T1 & T2).
      destruct IH as (bts & M1 & M2 & M3); [intros x Hx; apply HI; now right|]. exists (bt :: bts). cbn [mapM]. rewrite T1. cbn [bind]. rewrite M1. cbn [bind].
      split; [reflexivity|]. split; [cbn; now rewrite M2|]. now constructor. }
    destruct (MM bl (incl_refl bl)) as (bts & M1 & M2 & M3). rewrite M1. cbn [bind]. eexists. split; [reflexivity|]. split.
    - assert (bl <> []).
      { apply NE. left. assert (AB : at_block (N - 1) 1 1 (repeat 1 N)).
        { replace N with (S (N - 1)) at 2 by lia. destruct (ones (N - 1)) as (D1 & D2 & D3). repeat split; auto; lia. }
        destruct (i_complete _ _ I _ _ _ _ (le_n _) AB) as (c' & E' & _). intros X.
        assert (Y : In (N - 1, el (N - 1) 1 1) (get_graph_leafs g)) by (apply (leafs_iff (N - 1) g _ I ltac:(lia)); split; [reflexivity|now exists c']).
        rewrite X in Y. destruct Y. }
      destruct bl; [contradiction|]. destruct bts; [discriminate M2|discriminate].
    - rewrite Forall_map. exact M3.
  Qed.
End Search.

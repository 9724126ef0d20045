(** * The search for the cheapest partitions *)
From Coq Require Import Sorted.
From Verif.Model Require Import Base Partitioning GarciaOptimal.
From Verif.Spec Require Import Optimal.

Lemma elem_eqb_eq a b : elem_eqb a b = true <-> a = b.
Proof.
  destruct a as [[n s] q], b as [[n' s'] q']. cbn. rewrite !andb_true_iff, !Nat.eqb_eq. split; [intros [[-> ->] ->]; auto|].
  intros E. now injection E as -> -> ->.
Qed.
Lemma key_eqb_eq a b : key_eqb a b = true <-> a = b.
Proof.
  destruct a as [i a], b as [j b]. unfold key_eqb. cbn [fst snd]. rewrite andb_true_iff, Nat.eqb_eq, elem_eqb_eq. split; [intros [-> ->]; auto|].
  intros E. now injection E as -> ->.
Qed.
Lemma key_eqb_refl a : key_eqb a a = true. Proof. now apply key_eqb_eq. Qed.
Lemma key_eqb_neq a b : a <> b -> key_eqb a b = false.
Proof. intros H. destruct (key_eqb a b) eqn:E; auto. apply key_eqb_eq in E. contradiction. Qed.
Lemma key_dec (a b : key) : {a = b} + {a <> b}.
Proof. destruct (key_eqb a b) eqn:E; [left; now apply key_eqb_eq|right]. intros ->. rewrite key_eqb_refl in E. discriminate. Qed.

(** ** The sequences *)
Definition el (t s q : nat) : elem := (t + 1 + (s - q), s, q).
Definition nth_el (t i : nat) : elem := el t (2 ^ Nat.log2 (i + 1)) (i + 2 - 2 ^ Nat.log2 (i + 1)).
Definition seq_at (t : nat) : list elem := map (nth_el t) (seq 0 (t + 1)).

Lemma log2_bounds i : 2 ^ Nat.log2 (i + 1) <= i + 1 < 2 * 2 ^ Nat.log2 (i + 1).
Proof. pose proof (Nat.log2_spec (i + 1) ltac:(lia)) as [H1 H2]. cbn [Nat.pow] in H2. lia. Qed.
Lemma log2_at k i : 2 ^ k <= i < 2 * 2 ^ k -> Nat.log2 i = k.
Proof. intros H. apply Nat.log2_unique; cbn [Nat.pow]; lia. Qed.

Lemma next_po2 k : next_power_of_2 (2 ^ k + 1) = 2 * 2 ^ k.
Proof.
  unfold next_power_of_2. destruct (Nat.eqb_spec (2 ^ k + 1) 0); [lia|]. change (2 * 2 ^ k) with (2 ^ S k). f_equal.
  apply Nat.log2_up_unique; [lia|]. cbn [pred Nat.pow]. pose proof (Nat.pow_nonzero 2 k ltac:(lia)). lia.
Qed.

Lemma seq_at_snoc t : seq_at (S t) = map (nth_el (S t)) (seq 0 (t + 1)) ++ [nth_el (S t) (t + 1)].
Proof. unfold seq_at. replace (S t + 1) with (S (t + 1)) by lia. rewrite seq_S, map_app. reflexivity. Qed.
Lemma seq_at_last t : exists l, seq_at t = l ++ [nth_el t t].
Proof. exists (map (nth_el t) (seq 0 t)). unfold seq_at. rewrite Nat.add_1_r, seq_S, map_app. reflexivity. Qed.

Lemma next_sequence t : get_next_sequence (seq_at t) = Ok (seq_at (S t)).
Proof.
  unfold get_next_sequence. destruct (seq_at_last t) as [l El]. replace (rev (seq_at t)) with (nth_el t t :: rev l) by (rewrite El, rev_app_distr; reflexivity).
  assert (EM : map (fun e : elem => let '(n, s, q) := e in (n + 1, s, q)) (seq_at t) = map (nth_el (S t)) (seq 0 (t + 1))).
  { unfold seq_at. rewrite map_map. apply map_ext. intros i. unfold nth_el, el. f_equal. f_equal. lia. }
  rewrite EM, seq_at_snoc. unfold nth_el at 1, el. set (k := Nat.log2 (t + 1)).
  pose proof (log2_bounds t) as HB. fold k in HB. rewrite next_po2.
  destruct (Nat.eqb_spec (t + 2 - 2 ^ k) (2 ^ k)) as [E|N].
  - assert (E2 : nth_el (S t) (t + 1) = (t + 1 + (2 ^ k - (t + 2 - 2 ^ k)) + 2 * 2 ^ k, 2 * 2 ^ k, 1)).
    { unfold nth_el, el. assert (Nat.log2 (t + 1 + 1) = S k) as -> by (apply log2_at; cbn [Nat.pow]; lia).
      change (2 ^ S k) with (2 * 2 ^ k). set (x := 2 ^ k) in *. apply f_equal2; [apply f_equal2|]; lia. }
    rewrite E2. reflexivity.
  - assert (E2 : nth_el (S t) (t + 1) = (t + 1 + (2 ^ k - (t + 2 - 2 ^ k)), 2 ^ k, t + 2 - 2 ^ k + 1)).
    { unfold nth_el, el. assert (Nat.log2 (t + 1 + 1) = k) as -> by (apply log2_at; lia).
      set (x := 2 ^ k) in *. apply f_equal2; [apply f_equal2|]; lia. }
    rewrite E2. reflexivity.
Qed.

(** membership *)
Definition pow2 (s : nat) : Prop := exists k, s = 2 ^ k.
Lemma pow2_pos s : pow2 s -> 1 <= s.
Proof. intros [k ->]. pose proof (Nat.pow_nonzero 2 k). lia. Qed.
Lemma in_seq_at t e : In e (seq_at t) <-> exists s q, e = el t s q /\ pow2 s /\ 1 <= q <= s /\ s + q <= t + 2.
Proof.
  unfold seq_at. rewrite in_map_iff. split.
  - intros (i & <- & Hi). apply in_seq in Hi. pose proof (log2_bounds i). eexists _, _. split; [reflexivity|]. split; [now eexists|]. lia.
  - intros (s & q & -> & [k ->] & Hq & Hs). exists (2 ^ k + q - 2). split.
    + pose proof (pow2_pos (2 ^ k) ltac:(now exists k)). unfold nth_el. rewrite (log2_at k) by lia. f_equal. lia.
    + apply in_seq. lia.
Qed.
Lemma el_inj t s q s' q' : el t s q = el t s' q' -> s = s' /\ q = q'.
Proof. unfold el. intros E. now injection E as _ -> ->. Qed.

(** ** Transitions *)
Lemma viable_iff t s1 q1 s2 q2 : 1 <= q1 <= s1 -> 1 <= q2 <= s2 ->
  is_transition_viable (el t s1 q1) (el (S t) s2 q2) = true <->
  (s2 = s1 /\ q2 = q1 + 1) \/ (q2 = 1 /\ q1 = s1 /\ s1 <= s2 /\ 2 * s2 <= t + 2).
Proof.
  intros H1 H2. unfold is_transition_viable, el. rewrite andb_true_iff, orb_true_iff, !andb_true_iff, !Nat.eqb_eq, Nat.leb_le.
  destruct (Nat.eqb_spec q2 1) as [E|E].
  - rewrite Z.leb_le. split; [intros [[H|H] H']; lia|]. intros H. split; [left; lia|lia].
  - split; [intros [[H|H] _]; lia|]. intros H. split; auto. right. lia.
Qed.

Section Costs.
  Variable unit : Z.
  Variable big : nat -> Z.
  Notation tcost := (get_transition_cost unit big).
  Notation cost := (cost unit big).

  Lemma cost_after_app p l s : cost_after unit big p (l ++ [s]) =
    (cost_after unit big p l + (if (s =? last (p :: l) 0)%nat then unit else big s + unit))%Z.
  Proof.
    revert p. induction l as [|x l IH]; intros p; cbn [app cost_after last]; [lia|]. rewrite IH. cbn [last]. lia.
  Qed.
  Lemma cost_snoc ps s : ps <> [] -> cost (ps ++ [s]) = (cost ps + (if (s =? last ps 0)%nat then unit else big s + unit))%Z.
  Proof. destruct ps as [|p l]; [contradiction|]. intros _. cbn [app]. unfold Optimal.cost. apply cost_after_app. Qed.

  Lemma tcost_cont t s q : 1 <= q -> tcost (el t s q) (el (S t) s (q + 1)) = Ok 0%Z.
  Proof. intros H. unfold get_transition_cost, el. rewrite !Nat.eqb_refl. reflexivity. Qed.
  Lemma tcost_start t s1 s2 : 1 <= s1 -> s1 <= s2 -> tcost (el t s1 s1) (el (S t) s2 1) = Ok (if (s2 =? s1)%nat then unit else big s2 + unit)%Z.
  Proof.
    intros H0 H. unfold get_transition_cost, el. destruct (Nat.eqb_spec (s1 + 1) 1); [lia|]. rewrite andb_false_r.
    rewrite (Nat.eqb_sym s2 s1). destruct (Nat.eqb_spec s1 s2) as [E|E]; [subst; reflexivity|].
    destruct (Nat.ltb_spec s1 s2); [reflexivity|lia].
  Qed.
End Costs.

(** ** Divisions *)
Lemma division_ne ps : division ps -> ps <> [].
Proof. intros [|ps' s]; [discriminate|]. destruct ps'; discriminate. Qed.
Lemma division_last ps : division ps -> pow2 (last ps 0) /\ 2 * last ps 0 <= list_sum ps + 1 /\ last ps 0 <= list_sum ps.
Proof.
  intros [|ps' s H1 H2 H3 H4].
  - cbn. split; [now exists 0|lia].
  - rewrite last_last, list_sum_app. cbn. split; [exact H2|lia].
Qed.
Lemma division_snoc_inv ps s : division (ps ++ [s]) -> (ps = [] /\ s = 1) \/ (division ps /\ pow2 s /\ last ps 0 <= s /\ 2 * s <= list_sum ps + 1).
Proof.
  intros H. inversion H as [E|ps' s' H1 H2 H3 H4 E].
  - left. destruct ps as [|x ps]; [now injection E as <-|]. destruct ps; discriminate.
  - apply app_inj_tail in E as [-> ->]. right. auto.
Qed.
Lemma snoc_ex (ps : list nat) : ps <> [] -> ps = removelast ps ++ [last ps 0].
Proof. intros H. now apply app_removelast_last. Qed.
Lemma sum_snoc ps : ps <> [] -> list_sum ps = list_sum (removelast ps) + last ps 0.
Proof. intros H. rewrite (snoc_ex ps H) at 1. rewrite list_sum_app. cbn. lia. Qed.

(** all sizes are powers of two up to the last *)
Lemma division_sizes ps : division ps -> Forall (fun s => pow2 s /\ s <= last ps 0) ps.
Proof.
  intros H. induction H as [|ps s H IH H2 H3 H4].
  - constructor; [|constructor]. split; [now exists 0|cbn; lia].
  - rewrite last_last. apply Forall_app. split; [|constructor; auto]. eapply Forall_impl; [|exact IH]. cbn. intros a [Ha Hb]. split; auto. lia.
Qed.
Lemma pow2_divides a b : pow2 a -> pow2 b -> a <= b -> exists m, b = m * a.
Proof.
  intros [j ->] [k ->] H. assert (j <= k) by (apply (Nat.pow_le_mono_r_iff 2); lia). exists (2 ^ (k - j)). rewrite <- Nat.pow_add_r. f_equal. lia.
Qed.
Lemma pow2_half a b : pow2 a -> pow2 b -> a < b -> 2 * a <= b.
Proof.
  intros [j ->] [k ->] H. assert (j < k) by (apply (Nat.pow_lt_mono_r_iff 2); lia). change (2 * 2 ^ j) with (2 ^ S j). apply Nat.pow_le_mono_r; lia.
Qed.

(** A division can be cut at every distance from its end that is a multiple of its last size. *)
Lemma division_cut ps : division ps -> forall r m, 0 < r -> r = m * last ps 0 -> r < list_sum ps ->
  exists ps1 ps2, ps = ps1 ++ ps2 /\ division ps1 /\ list_sum ps2 = r /\ (forall unit big, (0 <= unit)%Z -> (forall s, 0 <= big s)%Z ->
    (cost unit big ps1 + unit * Z.of_nat (length ps2) <= cost unit big ps)%Z).
Proof.
  intros H. induction H as [|ps s H IH H2 H3 H4]; intros r m Hr Em Hlt.
  - cbn in *. lia.
  - rewrite last_last in Em. rewrite list_sum_app in Hlt. cbn [list_sum fold_right] in Hlt.
    assert (CS : forall unit big, (0 <= unit)%Z -> (forall s, 0 <= big s)%Z -> (cost unit big ps + unit <= cost unit big (ps ++ [s]))%Z).
    { intros unit big Hu Hb. rewrite cost_snoc by now apply division_ne. specialize (Hb s). destruct (s =? last ps 0); lia. }
    destruct (Nat.eq_dec m 1) as [->|Nm].
    + exists ps, [s]. split; auto. split; auto. split; [cbn; lia|]. intros unit big Hu Hb. specialize (CS unit big Hu Hb). cbn [length]. lia.
    + assert (Hs : 1 <= s) by now apply pow2_pos.
      destruct (pow2_divides (last ps 0) s) as [d Ed]; auto; [apply division_last; auto|].
      assert (2 <= m) by (destruct m as [|[|m]]; lia).
      destruct (IH (r - s) ((m - 1) * d)) as (ps1 & ps2 & E1 & E2 & E3 & E4).
      * nia.
      * rewrite Em. rewrite Nat.mul_sub_distr_r. rewrite Nat.mul_sub_distr_r. rewrite <- !Nat.mul_assoc, <- Ed. lia.
      * lia.
      * exists ps1, (ps2 ++ [s]). split; [rewrite E1, app_assoc; reflexivity|]. split; auto. split; [rewrite list_sum_app; cbn; nia|].
        intros unit big Hu Hb. specialize (E4 unit big Hu Hb). specialize (CS unit big Hu Hb). rewrite app_length. cbn [length]. lia.
Qed.

(** ** The graph *)
Lemma find_map_key (c : Z) k k' l :
  find (fun n : key * Z => key_eqb (fst n) k') (map (fun n => if key_eqb (fst n) k then (fst n, c) else n) l) =
  option_map (fun n => if key_eqb (fst n) k then (fst n, c) else n) (find (fun n => key_eqb (fst n) k') l).
Proof.
  induction l as [|n l IH]; [reflexivity|]. cbn [map find].
  assert (E : fst (if key_eqb (fst n) k then (fst n, c) else n) = fst n) by (destruct (key_eqb (fst n) k); reflexivity).
  rewrite E. destruct (key_eqb (fst n) k'); [reflexivity|exact IH].
Qed.
Lemma set_cost_same g k c c0 : node_cost g k = Some c0 -> node_cost (set_cost g k c) k = Some c.
Proof.
  unfold node_cost, set_cost. cbn [g_nodes]. rewrite find_map_key. destruct (find _ (g_nodes g)) as [n|] eqn:F; cbn [option_map]; [|discriminate].
  intros _. apply find_some in F as [_ F]. rewrite F. reflexivity.
Qed.
Lemma set_cost_other g k c k' : k' <> k -> node_cost (set_cost g k c) k' = node_cost g k'.
Proof.
  intros H. unfold node_cost, set_cost. cbn [g_nodes]. rewrite find_map_key. destruct (find _ (g_nodes g)) as [n|] eqn:F; cbn [option_map]; [|reflexivity].
  apply find_some in F as [_ F]. apply key_eqb_eq in F. rewrite F, key_eqb_neq by auto. reflexivity.
Qed.
Lemma find_app {T} (f : T -> bool) l1 l2 : find f (l1 ++ l2) = match find f l1 with Some x => Some x | None => find f l2 end.
Proof. induction l1 as [|x l1 IH]; [reflexivity|]. cbn [app find]. destruct (f x); auto. Qed.
Lemma add_node_same g k c : node_cost g k = None -> node_cost (add_node g k c) k = Some c.
Proof.
  unfold node_cost, add_node. cbn [g_nodes]. rewrite find_app. destruct (find _ (g_nodes g)); cbn [option_map find fst snd]; [discriminate|].
  intros _. rewrite key_eqb_refl. reflexivity.
Qed.
Lemma add_node_other g k c k' : k' <> k -> node_cost (add_node g k c) k' = node_cost g k'.
Proof.
  intros H. unfold node_cost, add_node. cbn [g_nodes]. rewrite find_app. destruct (find _ (g_nodes g)); [reflexivity|].
  cbn [option_map find fst snd]. rewrite key_eqb_neq by auto. reflexivity.
Qed.
Lemma filter_filter {T} (f h : T -> bool) l : filter f (filter h l) = filter (fun x => f x && h x) l.
Proof. induction l as [|x l IH]; [reflexivity|]. cbn [filter]. destruct (h x); cbn [filter]; destruct (f x); cbn [andb]; rewrite ?IH; reflexivity. Qed.
Lemma edge_eqb_eq a b : edge_eqb a b = true <-> a = b.
Proof.
  destruct a as [a1 a2], b as [b1 b2]. unfold edge_eqb. cbn [fst snd]. rewrite andb_true_iff, !key_eqb_eq. split; [intros [-> ->]; auto|].
  intros E. now injection E as -> ->.
Qed.
Lemma in_edges_in g k e : In e (in_edges g k) <-> In e (g_edges g) /\ snd e = k.
Proof. unfold in_edges. rewrite filter_In, key_eqb_eq. reflexivity. Qed.
Lemma in_edges_add_other g a b k : k <> b -> in_edges (add_edge g a b) k = in_edges g k.
Proof. intros H. unfold in_edges, add_edge. cbn [g_edges]. rewrite filter_app. cbn [filter snd]. rewrite key_eqb_neq by auto. apply app_nil_r. Qed.
Lemma in_edges_add_same g a b : in_edges (add_edge g a b) b = in_edges g b ++ [(a, b)].
Proof. unfold in_edges, add_edge. cbn [g_edges]. rewrite filter_app. cbn [filter snd]. now rewrite key_eqb_refl. Qed.
(** the edges into one node replaced by another *)
Lemma replace_other g a b c k : k <> b -> in_edges (remove_edges (set_cost (add_edge g a b) b c) (in_edges g b)) k = in_edges g k.
Proof.
  intros H. unfold in_edges at 1, remove_edges, set_cost, add_edge. cbn [g_edges]. rewrite filter_filter, filter_app. cbn [filter snd].
  rewrite (key_eqb_neq b k) by auto. cbn [andb]. rewrite app_nil_r. unfold in_edges at 2. apply filter_ext. intros e.
  destruct (key_eqb (snd e) k) eqn:E; [|reflexivity]. cbn [andb]. rewrite negb_true_iff. apply key_eqb_eq in E.
  destruct (existsb (edge_eqb e) (in_edges g b)) eqn:X; [|reflexivity]. apply existsb_exists in X as (e' & I1 & I2). apply edge_eqb_eq in I2. subst e'.
  apply in_edges_in in I1 as [_ I1]. congruence.
Qed.
Lemma replace_same g a b c : ~ In (a, b) (in_edges g b) -> in_edges (remove_edges (set_cost (add_edge g a b) b c) (in_edges g b)) b = [(a, b)].
Proof.
  intros H. unfold in_edges at 1, remove_edges, set_cost, add_edge. cbn [g_edges]. rewrite filter_filter, filter_app. cbn [filter snd].
  rewrite key_eqb_refl. cbn [andb].
  assert (E : existsb (edge_eqb (a, b)) (in_edges g b) = false).
  { destruct (existsb (edge_eqb (a, b)) (in_edges g b)) eqn:X; [|reflexivity]. apply existsb_exists in X as (e' & I1 & I2). apply edge_eqb_eq in I2. subst e'. contradiction. }
  rewrite E. cbn [negb].
  assert (E2 : filter (fun e => key_eqb (snd e) b && negb (existsb (edge_eqb e) (in_edges g b))) (g_edges g) = []).
  { assert (A : forall l, incl l (g_edges g) -> filter (fun e => key_eqb (snd e) b && negb (existsb (edge_eqb e) (in_edges g b))) l = []).
    { induction l as [|e l IH]; intros HI; [reflexivity|]. cbn [filter]. rewrite IH by (intros x Hx; apply HI; now right).
      destruct (key_eqb (snd e) b) eqn:K; [|reflexivity]. cbn [andb]. apply key_eqb_eq in K.
      assert (X : existsb (edge_eqb e) (in_edges g b) = true).
      { apply existsb_exists. exists e. split; [apply in_edges_in; split; auto; apply HI; now left|now apply edge_eqb_eq]. }
      rewrite X. reflexivity. }
    apply A. intros x Hx; exact Hx. }
  rewrite E2. reflexivity.
Qed.
Lemma remove_edges_cost g l k : node_cost (remove_edges g l) k = node_cost g k. Proof. reflexivity. Qed.
Lemma add_edge_cost g a b k : node_cost (add_edge g a b) k = node_cost g k. Proof. reflexivity. Qed.

(** ** One stage *)
Section Stage.
  Variable unit : Z.
  Variable big : nat -> Z.
  Notation tcost := (get_transition_cost unit big).
  Variable g0 : graph.
  Variable t : nat.
  Hypothesis fresh : forall e, node_cost g0 (t, e) = None /\ in_edges g0 (t, e) = [].
  Hypothesis Ht : 0 < t.

  (** a way to reach [e2] found among [done] *)
  Definition cand (done : list (elem * elem)) (e2 e1 : elem) (c : Z) : Prop :=
    In (e1, e2) done /\ exists a w, node_cost g0 (t - 1, e1) = Some a /\ tcost e1 e2 = Ok w /\ c = (w + a)%Z.

  Record layer (done : list (elem * elem)) (g : graph) : Prop := {
    la_cost : forall k, fst k <> t -> node_cost g k = node_cost g0 k;
    la_edges : forall k, fst k <> t -> in_edges g k = in_edges g0 k;
    la_none : forall e2, node_cost g (t, e2) = None -> in_edges g (t, e2) = [] /\ forall e1 c, ~ cand done e2 e1 c;
    la_some : forall e2 c, node_cost g (t, e2) = Some c ->
      (exists e1, cand done e2 e1 c /\ in_edges g (t, e2) = [((t - 1, e1), (t, e2))]) /\
      forall e1 c', cand done e2 e1 c' -> (c <= c')%Z }.

  Lemma layer_init : layer [] g0.
  Proof.
    constructor; auto.
    - intros e2 _. split; [apply fresh|]. intros e1 c [[] _].
    - intros e2 c E. destruct (fresh e2) as [F _]. rewrite F in E. discriminate.
  Qed.

  Lemma cand_mono done x e2 e1 c : cand done e2 e1 c -> cand (done ++ x) e2 e1 c.
  Proof. intros [H1 H2]. split; auto. apply in_or_app. now left. Qed.
  Lemma cand_skip done e1 l e2 e c : node_cost g0 (t - 1, e1) = None -> cand (done ++ map (pair e1) l) e2 e c -> cand done e2 e c.
  Proof.
    intros N [H1 (a & w & H2 & H3)]. apply in_app_or in H1 as [H1|H1]; [split; auto; now exists a, w|].
    apply in_map_iff in H1 as (x & E & _). injection E as <- <-. rewrite N in H2. discriminate.
  Qed.

  Lemma layer_relax done g e1 e2 a w : layer done g -> node_cost g0 (t - 1, e1) = Some a -> tcost e1 e2 = Ok w -> ~ In (e1, e2) done ->
    exists g', relax unit big (t - 1, e1) a t g e2 = Ok g' /\ layer (done ++ [(e1, e2)]) g'.
  Proof.
    intros L Ha Hw Hn. unfold relax. cbn [snd]. rewrite Hw. cbn [bind].
    assert (CD : forall e e' c, cand (done ++ [(e1, e2)]) e e' c -> cand done e e' c \/ (e = e2 /\ e' = e1 /\ c = (w + a)%Z)).
    { intros e e' c [H1 (a' & w' & H2 & H3 & H4)]. apply in_app_or in H1 as [H1|[H1|[]]].
      - left. split; auto. now exists a', w'.
      - injection H1 as <- <-. right. rewrite Ha in H2. rewrite Hw in H3. injection H2 as <-. injection H3 as <-. auto. }
    assert (CN : cand (done ++ [(e1, e2)]) e2 e1 (w + a)).
    { split; [apply in_or_app; right; now left|]. exists a, w. auto. }
    destruct (node_cost g (t, e2)) as [c|] eqn:E.
    - destruct (la_some _ _ L _ _ E) as [(e0 & C0 & I0) M0]. destruct (w + a <? c)%Z eqn:LT.
      + apply Z.ltb_lt in LT. eexists. split; [reflexivity|].
        assert (NI : ~ In ((t - 1, e1), (t, e2)) (in_edges g (t, e2))).
        { rewrite I0. intros [X|[]]. injection X as ->. apply Hn. apply C0. }
        constructor.
        * intros k Hk. rewrite remove_edges_cost, set_cost_other, add_edge_cost by (intros ->; now apply Hk). now apply (la_cost _ _ L).
        * intros k Hk. rewrite replace_other by (intros ->; now apply Hk). now apply (la_edges _ _ L).
        * intros e Ee. rewrite remove_edges_cost in Ee. destruct (key_dec (t, e) (t, e2)) as [K|K].
          -- injection K as ->. rewrite (set_cost_same _ _ _ c) in Ee by (rewrite add_edge_cost; exact E). discriminate.
          -- rewrite set_cost_other, add_edge_cost in Ee by auto. destruct (la_none _ _ L _ Ee) as [N1 N2]. split.
             ++ rewrite replace_other by auto. exact N1.
             ++ intros e' c' HC. apply CD in HC as [HC|(-> & _)]; [now apply (N2 e' c')|contradiction].
        * intros e c' Ee. rewrite remove_edges_cost in Ee. destruct (key_dec (t, e) (t, e2)) as [K|K].
          -- injection K as ->. rewrite (set_cost_same _ _ _ c) in Ee by (rewrite add_edge_cost; exact E). injection Ee as <-. split.
             ++ exists e1. split; auto. now apply replace_same.
             ++ intros e' c' HC. apply CD in HC as [HC|(_ & _ & ->)]; [specialize (M0 _ _ HC); lia|lia].
          -- rewrite set_cost_other, add_edge_cost in Ee by auto. destruct (la_some _ _ L _ _ Ee) as [(x & X1 & X2) X3]. split.
             ++ exists x. split; [now apply cand_mono|]. rewrite replace_other by auto. exact X2.
             ++ intros e' c0 HC. apply CD in HC as [HC|(-> & _)]; [now apply (X3 e')|contradiction].
      + apply Z.ltb_ge in LT. exists g. split; [reflexivity|]. constructor; try apply L.
        * intros e Ee. destruct (la_none _ _ L _ Ee) as [N1 N2]. split; auto. intros e' c' HC. apply CD in HC as [HC|(-> & _)]; [now apply (N2 e' c')|].
          rewrite E in Ee. discriminate.
        * intros e c' Ee. destruct (la_some _ _ L _ _ Ee) as [(x & X1 & X2) X3]. split; [exists x; split; auto; now apply cand_mono|].
          intros e' c0 HC. apply CD in HC as [HC|(-> & -> & ->)]; [now apply (X3 e')|]. rewrite E in Ee. injection Ee as <-. lia.
    - eexists. split; [reflexivity|]. constructor.
      + intros k Hk. rewrite add_edge_cost, add_node_other by (intros ->; now apply Hk). now apply (la_cost _ _ L).
      + intros k Hk. rewrite in_edges_add_other by (intros ->; now apply Hk). now apply (la_edges _ _ L).
      + intros e Ee. rewrite add_edge_cost in Ee. destruct (key_dec (t, e) (t, e2)) as [K|K].
        * injection K as ->. rewrite add_node_same in Ee by exact E. discriminate.
        * rewrite add_node_other in Ee by auto. destruct (la_none _ _ L _ Ee) as [N1 N2]. split.
          -- rewrite in_edges_add_other by auto. exact N1.
          -- intros e' c' HC. apply CD in HC as [HC|(-> & _)]; [now apply (N2 e' c')|contradiction].
      + intros e c' Ee. rewrite add_edge_cost in Ee. destruct (la_none _ _ L _ E) as [N1 N2]. destruct (key_dec (t, e) (t, e2)) as [K|K].
        * injection K as ->. rewrite add_node_same in Ee by exact E. injection Ee as <-. split.
          -- exists e1. split; auto. rewrite in_edges_add_same. change (in_edges (add_node g (t, e2) (w + a)) (t, e2)) with (in_edges g (t, e2)). now rewrite N1.
          -- intros e' c' HC. apply CD in HC as [HC|(_ & _ & ->)]; [now apply N2 in HC|lia].
        * rewrite add_node_other in Ee by auto. destruct (la_some _ _ L _ _ Ee) as [(x & X1 & X2) X3]. split.
          -- exists x. split; [now apply cand_mono|]. rewrite in_edges_add_other by auto. exact X2.
          -- intros e' c0 HC. apply CD in HC as [HC|(-> & _)]; [now apply (X3 e')|contradiction].
  Qed.

  Lemma layer_relaxes e1 a : node_cost g0 (t - 1, e1) = Some a -> forall l done g, layer done g -> NoDup l ->
    (forall e2, In e2 l -> (exists w, tcost e1 e2 = Ok w) /\ ~ In (e1, e2) done) ->
    exists g', foldM (relax unit big (t - 1, e1) a t) l g = Ok g' /\ layer (done ++ map (pair e1) l) g'.
  Proof.
    intros Ha. induction l as [|e2 l IH]; intros done g L ND H.
    - exists g. cbn [map]. rewrite app_nil_r. split; [reflexivity|exact L].
    - inversion ND as [|x y N1 N2]; subst. destruct (H e2 (or_introl eq_refl)) as [[w Hw] Hn].
      destruct (layer_relax done g e1 e2 a w L Ha Hw Hn) as (g1 & E1 & L1). cbn [foldM]. rewrite E1. cbn [bind].
      destruct (IH _ g1 L1 N2) as (g2 & E2 & L2).
      + intros e He. destruct (H e (or_intror He)) as [W1 W2]. split; auto. intros X. apply in_app_or in X as [X|[X|[]]]; [contradiction|].
        injection X as <-. contradiction.
      + exists g2. split; [exact E2|]. rewrite <- app_assoc in L2. exact L2.
  Qed.

  Variable next : list elem.
  Hypothesis next_nd : NoDup next.
  Definition pairs (l : list elem) : list (elem * elem) := flat_map (fun e1 => map (pair e1) (get_viable_transitions e1 next)) l.
  Lemma in_pairs l e1 e2 : In (e1, e2) (pairs l) <-> In e1 l /\ In e2 next /\ is_transition_viable e1 e2 = true.
  Proof.
    unfold pairs. rewrite in_flat_map. split.
    - intros (x & H1 & H2). apply in_map_iff in H2 as (y & E & H2). injection E as -> ->. unfold get_viable_transitions in H2. apply filter_In in H2. tauto.
    - intros (H1 & H2 & H3). exists e1. split; auto. apply in_map_iff. exists e2. split; auto. apply filter_In. tauto.
  Qed.

  Lemma layer_visits : forall l done g, layer done g -> NoDup l ->
    (forall e1 e2, In e1 l -> In e2 next -> is_transition_viable e1 e2 = true -> exists w, tcost e1 e2 = Ok w) ->
    (forall e1 e2, In e1 l -> ~ In (e1, e2) done) ->
    exists g', foldM (visit unit big t next) l g = Ok g' /\ layer (done ++ pairs l) g'.
  Proof.
    induction l as [|e1 l IH]; intros done g L ND HW HN.
    - exists g. cbn. rewrite app_nil_r. auto.
    - inversion ND as [|x y N1 N2]; subst. cbn [foldM].
      assert (HV : exists g1, visit unit big t next g e1 = Ok g1 /\ layer (done ++ map (pair e1) (get_viable_transitions e1 next)) g1).
      { unfold visit. rewrite (la_cost _ _ L (t - 1, e1)) by (cbn [fst]; lia). destruct (node_cost g0 (t - 1, e1)) as [a|] eqn:Ha.
        - apply layer_relaxes; auto; [apply NoDup_filter; exact next_nd|]. intros e2 He2. apply filter_In in He2 as [He2 V]. split.
          + apply HW; auto. now left.
          + apply HN. now left.
        - exists g. split; [reflexivity|]. constructor; try apply L.
          + intros e Ee. destruct (la_none _ _ L _ Ee) as [X1 X2]. split; auto. intros e' c HC. apply cand_skip in HC; auto. now apply (X2 e' c).
          + intros e c Ee. destruct (la_some _ _ L _ _ Ee) as [(x & X1 & X2) X3]. split; [exists x; split; auto; now apply cand_mono|].
            intros e' c' HC. apply cand_skip in HC; auto. now apply (X3 e'). }
      destruct HV as (g1 & E1 & L1). rewrite E1. cbn [bind]. destruct (IH _ g1 L1 N2) as (g2 & E2 & L2).
      + intros e e2 He. apply HW. now right.
      + intros e e2 He X. apply in_app_or in X as [X|X]; [revert X; apply HN; now right|]. apply in_map_iff in X as (y & E & _). injection E as -> _. contradiction.
      + exists g2. split; [exact E2|]. cbn [pairs flat_map]. rewrite <- app_assoc in L2. exact L2.
  Qed.
End Stage.

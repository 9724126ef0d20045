(** * Partition schemes: nearest scheme, coverage, clearance *)
From Verif.Model Require Import Base Float32 Partitioning PartitionSchemes.
From Verif.Spec Require Import Layout.
From Verif.Proofs Require Import Lists FloatProof.
From Coq Require Import Sorting.Sorted Permutation.
Local Open Scope Z_scope.

Definition dist (ir : Z) (s : scheme) : Z := Z.abs (ir - ps_ir s).
Definition nearest (ir : Z) (r : scheme) (l : list scheme) : Prop :=
  forall s, In s l -> dist ir r <= dist ir s /\ (dist ir r = dist ir s -> ps_ir r <= ps_ir s).

Definition le_s (a b : scheme) : Prop := ps_ir a <= ps_ir b.

Lemma insert_perm s l : Permutation (insert_scheme s l) (s :: l).
Proof.
  induction l as [|a l IH]; cbn; [reflexivity|]. destruct (_ <=? _); [reflexivity|].
  rewrite IH. apply perm_swap.
Qed.
Lemma sort_perm l : Permutation (sort_schemes l) l.
Proof. induction l as [|a l IH]; cbn; [reflexivity|]. rewrite insert_perm. now constructor. Qed.
Lemma insert_sorted s l : StronglySorted le_s l -> StronglySorted le_s (insert_scheme s l).
Proof.
  induction l as [|a l IH]; cbn; intros H; [repeat constructor|].
  inversion H as [|? ? H1 H2]; subst. destruct (Z.leb_spec (ps_ir s) (ps_ir a)).
  - constructor; auto. constructor; [assumption|]. rewrite Forall_forall in *. intros x Hx.
    specialize (H2 x Hx). unfold le_s in *. lia.
  - constructor; [auto|]. rewrite Forall_forall in *. intros x Hx.
    apply (Permutation_in _ (insert_perm s l)) in Hx. destruct Hx as [<-|Hx]; [unfold le_s; lia|auto].
Qed.
Lemma sort_sorted l : StronglySorted le_s (sort_schemes l).
Proof. induction l; cbn; [constructor|]. now apply insert_sorted. Qed.

Lemma find_nearest_ok ir : forall rest lower prev,
  StronglySorted le_s (lower :: rest) ->
  (prev = [] \/ (ps_ir lower <= ir /\ forall e, In e prev -> ps_ir e <= ps_ir lower)) ->
  In (find_nearest_from lower rest ir) (lower :: rest) /\
  nearest ir (find_nearest_from lower rest ir) (prev ++ lower :: rest).
Proof.
  induction rest as [|s t IH]; intros lower prev Hs Hp; cbn [find_nearest_from].
  - split; [now left|]. intros e He. apply in_app_or in He as [He|[<-|[]]]; [|split; lia].
    destruct Hp as [->|[Hl Hp]]; [destruct He|]. specialize (Hp e He). unfold dist. lia.
  - inversion Hs as [|? ? Hs2 Hf]; subst. rewrite Forall_forall in Hf.
    inversion Hs2 as [|? ? Hs3 Hf2]; subst. rewrite Forall_forall in Hf2. unfold le_s in *.
    assert (Hls : ps_ir lower <= ps_ir s) by (apply Hf; now left).
    destruct (Z.ltb_spec ir (ps_ir s)) as [Hlt|Hge].
    + assert (Hlow : forall e, In e (prev ++ [lower]) ->
                dist ir lower <= dist ir e /\ (dist ir lower = dist ir e -> ps_ir lower <= ps_ir e)).
      { intros e He. apply in_app_or in He as [He|[<-|[]]]; [|split; lia].
        destruct Hp as [->|[Hl Hp]]; [destruct He|]. specialize (Hp e He). unfold dist. lia. }
      assert (Hhigh : forall e, In e (s :: t) -> ps_ir s <= ps_ir e).
      { intros e [<-|He]; [lia|]. now apply Hf2. }
      fold (dist ir s) (dist ir lower).
      assert (Hcase : forall e, In e (prev ++ lower :: s :: t) -> In e (prev ++ [lower]) \/ In e (s :: t)).
      { intros e He. rewrite in_app_iff in *. cbn in *. tauto. }
      destruct (Z.ltb_spec (dist ir s) (dist ir lower)).
      * split; [right; now left|]. intros e He. destruct (Hcase e He) as [H1|H1].
        -- specialize (Hlow e H1). lia.
        -- specialize (Hhigh e H1). unfold dist in *. lia.
      * split; [now left|]. intros e He. destruct (Hcase e He) as [H1|H1].
        -- exact (Hlow e H1).
        -- specialize (Hhigh e H1). unfold dist in *. lia.
    + destruct (IH s (prev ++ [lower]) Hs2) as [I1 I2].
      { right. split; [lia|]. intros e He. apply in_app_or in He as [He|[<-|[]]]; [|lia].
        destruct Hp as [->|[Hl Hp]]; [destruct He|]. specialize (Hp e He). lia. }
      split; [now right|]. rewrite <- app_assoc in I2. exact I2.
Qed.

Theorem find_nearest results ir : results <> [] ->
  exists r, FindNearestPartitionScheme results ir = Ok r /\ In r results /\ nearest ir r results.
Proof.
  intros Hne. unfold FindNearestPartitionScheme.
  pose proof (sort_perm results) as HP. pose proof (sort_sorted results) as HS.
  destruct (sort_schemes results) as [|s t].
  { apply Permutation_nil in HP. congruence. }
  destruct (find_nearest_ok ir t s [] HS (or_introl eq_refl)) as [H1 H2].
  eexists. split; [reflexivity|]. split; [eapply Permutation_in; eauto|].
  intros e He. apply H2. cbn. now apply (Permutation_in _ (Permutation_sym HP)).
Qed.

(** ** layouts *)
Lemma layout_samples_app B l l' : layout_samples B (l ++ l') = layout_samples B l + layout_samples B l'.
Proof. induction l; cbn [app layout_samples]; lia. Qed.

Lemma back_snoc l a : back (l ++ [a]) = Ok a.
Proof. unfold back. now rewrite rev_app_distr. Qed.
Lemma set_back_snoc l a a' : set_back (l ++ [a]) a' = l ++ [a'].
Proof. unfold set_back. now rewrite removelast_last. Qed.

(** what the tables satisfy *)
Definition pow2b (n : Z) : bool := (2 <=? n) && (2 ^ Z.log2 n =? n).
Fixpoint tail_ok (prefix : Z) (l : list layout) : bool :=
  match l with
  | [] => true
  | a :: t => pow2b (pl_size a) && (0 <? pl_num a) && (prefix =? 2 * pl_size a)
              && tail_ok (prefix + pl_size a * pl_num a) t
  end.
Definition scheme_ok (B : Z) (results : list scheme) (s : scheme) : bool :=
  match ps_layout s with
  | [] => false
  | a :: t =>
      (pl_size a =? 1) && (0 <? pl_num a) && tail_ok (pl_num a) t
      && (layout_samples B (ps_layout s) =? ps_ir s) && (ps_ir s <=? 2 ^ 24)
      && (B * pl_size (last t a) <=? 2 ^ 24)
      && match t with
         | [] => true
         | _ => let last_samples := pl_samples (last t a) B in
                existsb (fun L => (ps_ir L <? ps_ir s) && (ps_ir s - ps_ir L <=? 2 * last_samples)
                                  && (2 * (ps_ir s - last_samples + B) <=? ps_ir s + ps_ir L)) results
         end
  end.
Definition tables_ok : bool :=
  forallb (fun e => (0 <? fst e) && (0 <? Z.of_nat (length (snd e)))
                    && forallb (scheme_ok (fst e) (snd e)) (snd e)) kGarciaResults.
Lemma tables_checked : tables_ok = true.
Proof. vm_compute. reflexivity. Qed.

Lemma find_results_in g B r : find_results g B = Some r -> In (B, r) g.
Proof.
  induction g as [|[b' r'] g IH]; cbn; [discriminate|]. destruct (Z.eqb_spec b' B); intros E.
  - injection E as ->. subst. now left.
  - right. auto.
Qed.

(** the layout returned *)
Definition good_layout (B ir : Z) (l : list layout) : Prop :=
  exists a t, l = a :: t /\ pl_size a = 1 /\ 2 <= pl_num a /\
    (forall pre b post, t = pre ++ b :: post ->
       pow2_blocks (pl_size b) /\ 0 < pl_num b /\
       layout_samples B (a :: pre) = 2 * pl_size b * B + B /\
       layout_samples B (a :: pre) < ir) /\
    ir <= layout_samples B l < ir + B + pl_size (last t a) * B.

Lemma pow2b_ok n : pow2b n = true -> pow2_blocks n.
Proof.
  unfold pow2b. rewrite andb_true_iff. intros [H1 H2]. apply Z.leb_le in H1. apply Z.eqb_eq in H2.
  exists (Z.log2 n). split; [|now symmetry]. change 1 with (Z.log2 2). now apply Z.log2_le_mono.
Qed.

Lemma tail_ok_split prefix pre b post : forall (H : tail_ok prefix (pre ++ b :: post) = true),
  pow2_blocks (pl_size b) /\ 0 < pl_num b /\
  prefix + layout_samples 1 pre = 2 * pl_size b /\ 0 <= layout_samples 1 post /\
  0 <= layout_samples 1 pre.
Proof.
  revert prefix. induction pre as [|a pre IH]; intros prefix H; cbn [app tail_ok] in H.
  - rewrite !andb_true_iff in H. destruct H as [[[H1 H2] H3] H4].
    apply pow2b_ok in H1. apply Z.ltb_lt in H2. apply Z.eqb_eq in H3. cbn [layout_samples].
    repeat split; auto; try lia.
    clear - H4. revert H4. generalize (prefix + pl_size b * pl_num b). induction post as [|c post IH]; intros p H4; cbn [layout_samples]; [lia|].
    cbn [tail_ok] in H4. rewrite !andb_true_iff in H4. destruct H4 as [[[H1 H2] H3] H4].
    apply IH in H4. apply Z.ltb_lt in H2. unfold pow2b in H1. rewrite andb_true_iff in H1. destruct H1 as [H1 _].
    apply Z.leb_le in H1. nia.
  - rewrite !andb_true_iff in H. destruct H as [[[H1 H2] H3] H4].
    apply IH in H4 as (I1 & I2 & I3 & I4 & I5). cbn [layout_samples].
    apply Z.ltb_lt in H2. unfold pow2b in H1. rewrite andb_true_iff in H1. destruct H1 as [H1 _].
    apply Z.leb_le in H1. repeat split; auto; nia.
Qed.

Lemma tail_ok_last prefix pre z z' : pl_size z' = pl_size z -> 0 < pl_num z' ->
  tail_ok prefix (pre ++ [z]) = true -> tail_ok prefix (pre ++ [z']) = true.
Proof.
  intros Hs Hn. revert prefix. induction pre as [|a pre IH]; intros prefix; cbn [app tail_ok].
  - rewrite !andb_true_iff, Hs. intros [[[H1 H2] H3] _]. repeat split; auto. now apply Z.ltb_lt.
  - rewrite !andb_true_iff. intros [H1 H2]. split; auto.
Qed.

Lemma tail_ok_mono z : forall p pre prefix c q, tail_ok prefix (pre ++ [z]) = true ->
  pre ++ [z] = p ++ c :: q -> layout_samples 1 p <= layout_samples 1 pre.
Proof.
  induction p as [|x p IH]; intros pre prefix c q H E.
  - apply tail_ok_split in H. cbn [layout_samples]. lia.
  - destruct pre as [|x' pre]; cbn [app] in E.
    + injection E as _ E. destruct p; discriminate.
    + injection E as -> E. cbn [app tail_ok] in H. rewrite !andb_true_iff in H. destruct H as [_ H].
      specialize (IH _ _ _ _ H E). cbn [layout_samples]. lia.
Qed.

Lemma layout_samples_scale B l : layout_samples B l = layout_samples 1 l * B.
Proof. induction l; cbn [layout_samples]; lia. Qed.

Lemma last_snoc_app {X} (t : list X) a : t <> [] -> exists pre b, t = pre ++ [b] /\ last t a = b.
Proof.
  intros H. destruct (exists_last H) as (pre & b & ->). exists pre, b. split; auto.
  apply last_last.
Qed.

Theorem scheme_good B ir results :
  find_results kGarciaResults B = Some results -> 1 <= ir <= 2 ^ 24 ->
  exists l, GetPartitionScheme kGarciaResults B ir = Ok l /\ good_layout B ir l.
Proof.
  intros Hfind Hir. unfold GetPartitionScheme. rewrite Hfind.
  pose proof tables_checked as HT. unfold tables_ok in HT. rewrite forallb_forall in HT.
  specialize (HT _ (find_results_in _ _ _ Hfind)). cbn [fst snd] in HT.
  rewrite !andb_true_iff, !Z.ltb_lt, forallb_forall in HT. destruct HT as [[HB Hne] HT].
  destruct (find_nearest results ir) as (s & E & Hin & Hnear).
  { intros ->. cbn in Hne. lia. }
  rewrite E. cbn [bind]. clear E Hne. specialize (HT s Hin). unfold scheme_ok in HT.
  destruct s as [sir slay]. cbn [ps_ir ps_layout] in *. destruct slay as [|a t]; [discriminate|].
  rewrite !andb_true_iff in HT. destruct HT as [[[[[[H1 H2] H3] H4] H5] H6] H7].
  apply Z.eqb_eq in H1. apply Z.ltb_lt in H2. apply Z.eqb_eq in H4. apply Z.leb_le in H5. apply Z.leb_le in H6.
  assert (Hn : exists pre z, a :: t = pre ++ [z] /\ last t a = z /\ layout_samples B pre = sir - pl_samples z B /\
               (t = [] -> pre = [] /\ z = a) /\ (t <> [] -> exists pre', pre = a :: pre' /\ t = pre' ++ [z])).
  { destruct t as [|b t].
    - exists [], a. cbn. cbn [layout_samples] in H4. unfold pl_samples. repeat split; auto; [lia|congruence].
    - destruct (last_snoc_app (b :: t) a) as (pre & z & Et & El); [discriminate|].
      exists (a :: pre), z. rewrite Et in *. rewrite El in *. split; auto. split; auto. split.
      { change (a :: pre ++ [z]) with ((a :: pre) ++ [z]) in H4. rewrite layout_samples_app in H4.
        cbn [layout_samples] in *. unfold pl_samples. lia. }
      split; [intros E0; destruct pre; discriminate|]. intros _. eauto. }
  destruct Hn as (pre & z & Epz & El & Hpre & Hone & Hmany).
  assert (Hzpos : 0 < pl_size z /\ 0 < pl_num z).
  { destruct t as [|b t].
    - destruct (Hone eq_refl) as [_ ->]. lia.
    - destruct Hmany as (pre' & -> & Et); [discriminate|]. rewrite Et in H3.
      destruct (tail_ok_split (pl_num a) pre' z [] H3) as ((e & He & ->) & T2 & _).
      pose proof (Z.pow_pos_nonneg 2 e ltac:(lia) ltac:(lia)). lia. }
  destruct Hzpos as [Hzs Hzn].
  set (P := B * pl_size z). assert (HP : 0 < P) by (unfold P; nia).
  assert (HP24 : P <= 2 ^ 24) by (unfold P; rewrite <- El; exact H6).
  assert (Hlasts : pl_samples z B = P * pl_num z) by (unfold pl_samples, P; lia).
  assert (Hsir : 0 <= sir).
  { destruct t as [|b t].
    - destruct (Hone eq_refl) as [-> ->]. cbn [layout_samples] in Hpre. nia.
    - destruct Hmany as (pre' & -> & Et); [discriminate|]. rewrite Et in H3.
      destruct (tail_ok_split (pl_num a) pre' z [] H3) as (_ & _ & _ & _ & T5).
      cbn [layout_samples] in Hpre. rewrite (layout_samples_scale B pre') in Hpre. nia. }
  (* removal never empties the last segment, and it starts inside the response *)
  assert (Hrem : sir - ir < pl_samples z B /\ (t <> [] -> sir - pl_samples z B + B < ir)).
  { destruct t as [|b t].
    - destruct (Hone eq_refl) as [-> ->]. cbn [layout_samples] in Hpre. split; [lia|congruence].
    - apply existsb_exists in H7. destruct H7 as (L & HL & HE).
      cbn beta in HE. rewrite El in HE. rewrite !andb_true_iff, Z.ltb_lt, !Z.leb_le in HE.
      destruct HE as [[HE1 HE2] HE3]. destruct (Hnear L HL) as [N1 N2]. unfold dist in N1, N2. cbn [ps_ir] in N1, N2.
      split; [|intros _]; lia. }
  destruct Hrem as [Hrem Hinside].
  (* the resized layout *)
  assert (HR : exists k, (if 0 <? ir - sir then ExtendSchemeToFitIR (a :: t) (ir - sir) B
                          else ReduceSchemeToFitIR (a :: t) (ir - sir) B)
                         = Ok (pre ++ [{| pl_size := pl_size z; pl_num := pl_num z + k |}]) /\
                         0 < pl_num z + k /\ ir <= sir + k * P < ir + P).
  { rewrite Epz. destruct (Z.ltb_spec 0 (ir - sir)) as [Hpos|Hneg].
    - unfold ExtendSchemeToFitIR. rewrite back_snoc. cbn [bind]. fold P.
      rewrite assert_true by now apply Z.ltb_lt. cbn [bind].
      rewrite f_div_ceil by lia. rewrite set_back_snoc. eexists. split; [reflexivity|].
      pose proof (zceil_spec (ir - sir) P HP). split; nia.
    - unfold ReduceSchemeToFitIR. cbn [reduce_scheme]. rewrite back_snoc. cbn [bind].
      rewrite Z.abs_neq by lia. destruct (Z.ltb_spec (- (ir - sir)) (pl_samples z B)); [|lia].
      fold P. rewrite assert_true by now apply Z.ltb_lt. cbn [bind].
      rewrite f_div_floor by lia. rewrite set_back_snoc.
      exists (- ((- (ir - sir)) / P)). split; [do 4 f_equal; lia|].
      pose proof (Z.div_mod (- (ir - sir)) P ltac:(lia)) as Hd.
      pose proof (Z.mod_pos_bound (- (ir - sir)) P HP) as Hm. split; nia. }
  destruct HR as (k & -> & Hk & Hcov). cbn [bind].
  (* one more partition in front *)
  destruct t as [|b t].
  - destruct (Hone eq_refl) as [-> ->]. cbn [app bump_front pl_size pl_num].
    eexists. split; [reflexivity|]. do 2 eexists. split; [reflexivity|]. cbn [pl_size pl_num last layout_samples] in *.
    split; auto. split; [lia|]. split; [intros [|? ?] ? ? ?; discriminate|].
    unfold P in *. rewrite H1 in *. nia.
  - destruct Hmany as (pre' & -> & Et); [discriminate|].
    cbn [app bump_front]. eexists. split; [reflexivity|]. do 2 eexists. split; [reflexivity|].
    cbn [pl_size pl_num]. split; auto. split; [lia|].
    set (z' := {| pl_size := pl_size z; pl_num := pl_num z + k |}).
    assert (H3' : tail_ok (pl_num a) (pre' ++ [z']) = true).
    { apply tail_ok_last with (z := z); [reflexivity|exact Hk|]. now rewrite <- Et. }
    split.
    + intros p c q Ep. pose proof (tail_ok_mono z' p pre' _ c q H3' Ep) as Hle. rewrite Ep in H3'.
      destruct (tail_ok_split _ _ _ _ H3') as (T1 & T2 & T3 & T4 & T5).
      assert (Hoff : pl_size a * (pl_num a + 1) * B + layout_samples B p = 2 * pl_size c * B + B).
      { rewrite layout_samples_scale. nia. }
      split; auto. split; auto. split; cbn [layout_samples pl_size pl_num]; [lia|].
      assert (Hin2 : sir - pl_samples z B + B < ir) by (apply Hinside; discriminate).
      cbn [layout_samples] in Hpre. rewrite (layout_samples_scale B p). rewrite (layout_samples_scale B pre') in Hpre. nia.
    + rewrite last_last. change (?x :: pre' ++ [z']) with ((x :: pre') ++ [z']).
      rewrite layout_samples_app. cbn [layout_samples pl_size pl_num] in *. unfold z', P in *. cbn [pl_size pl_num] in *. nia.
Qed.

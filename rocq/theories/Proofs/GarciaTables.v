(** * A check that a division is the cheapest, and its soundness *)
From Coq Require Import FSets.FMapPositive.
From Verif.Model Require Import Base Partitioning GarciaOptimal.
From Verif.Spec Require Import Optimal.
From Verif.Proofs Require Import GarciaProof GarciaSearch.

Section Check.
  Variable unit : Z.
  Variable bigl : nat -> Z. (* by logarithm *)
  Variable big : nat -> Z.
  Hypothesis Hbigl : forall j, big (2 ^ j) = bigl j.
  Notation cost := (cost unit big).

  Definition omin (a b : option Z) : option Z :=
    match a, b with Some x, Some y => Some (Z.min x y) | Some x, None => Some x | None, y => y end.
  (** a partition of size 2^j after the best divisions [row] (one per logarithm of the last size) *)
  Fixpoint after (j i : nat) (row : list (option Z)) : option Z :=
    match row with
    | [] => None
    | v :: t => omin (if i <=? j then option_map (fun c => (c + (if (j =? i)%nat then unit else bigl j + unit))%Z) v else None) (after j (S i) t)
    end.
  (** the best divisions by sum *)
  Definition row_map : Type := PositiveMap.t (list (option Z)).
  Definition get (m : row_map) (z : Z) : list (option Z) := match PositiveMap.find (Z.to_pos z) m with Some r => r | None => [] end.
  Definition sizes (J : nat) : list (nat * Z) := map (fun j => (j, 2 ^ Z.of_nat j)%Z) (seq 0 J).
  Definition new_row (J : nat) (z : Z) (m : row_map) : list (option Z) :=
    map (fun e : nat * Z => let '(j, w) := e in if (3 * w <=? z + 1)%Z then after j 0 (get m (z - w)) else None) (sizes J).
  Fixpoint table (J t : nat) : row_map * Z :=
    match t with
    | 0 => (PositiveMap.add 1%positive [Some 0%Z] (PositiveMap.empty _), 1%Z)
    | S t => let '(m, z) := table J t in let z := Z.succ z in (PositiveMap.add (Z.to_pos z) (new_row J z m) m, z)
    end.

  Definition ole (v : option Z) (c : Z) : Prop := exists x, v = Some x /\ (x <= c)%Z.
  Lemma omin_l a b c : ole a c -> ole (omin a b) c.
  Proof. intros (x & -> & H). destruct b as [y|]; cbn; eexists; split; try reflexivity; lia. Qed.
  Lemma omin_r a b c : ole b c -> ole (omin a b) c.
  Proof. intros (x & -> & H). destruct a as [y|]; cbn; eexists; split; try reflexivity; lia. Qed.
  Lemma after_le j i0 row i c : i0 <= i -> i <= j -> ole (nth (i - i0) row None) c -> ole (after j i0 row) (c + (if (j =? i)%nat then unit else bigl j + unit)).
  Proof.
    revert i0. induction row as [|v row IH]; intros i0 H1 H2 (x & E & L).
    - destruct (i - i0); discriminate E.
    - cbn [after]. destruct (Nat.eq_dec i i0) as [->|N].
      + apply omin_l. rewrite Nat.sub_diag in E. cbn [nth] in E. subst v. destruct (Nat.leb_spec i0 j); [|lia]. cbn [option_map]. eexists. split; [reflexivity|]. lia.
      + apply omin_r. apply IH; [lia|lia|]. exists x. split; auto. replace (i - i0) with (S (i - S i0)) in E by lia. exact E.
  Qed.
  Lemma table_snd J t : snd (table J t) = (Z.of_nat t + 1)%Z.
  Proof. induction t as [|t IH]; [reflexivity|]. cbn [table]. destruct (table J t) as [m z]. cbn [snd] in *. lia. Qed.
  Lemma get_same m z r : get (PositiveMap.add (Z.to_pos z) r m) z = r.
  Proof. unfold get. now rewrite PositiveMap.gss. Qed.
  Lemma get_other m z z' r : (0 < z)%Z -> (0 < z')%Z -> z <> z' -> get (PositiveMap.add (Z.to_pos z) r m) z' = get m z'.
  Proof. intros H1 H2 H. unfold get. rewrite PositiveMap.gso; [reflexivity|]. intros E. apply H. lia. Qed.
  Lemma pow2_Z j : Z.of_nat (2 ^ j) = (2 ^ Z.of_nat j)%Z.
  Proof. induction j as [|j IH]; [reflexivity|]. rewrite Nat2Z.inj_succ, Z.pow_succ_r by lia. cbn [Nat.pow]. lia. Qed.

  Lemma pow2_lt_inj a b : 2 ^ a = 2 ^ b -> a = b.
  Proof. intros E. apply (Nat.pow_inj_r 2); lia. Qed.

  Lemma new_row_nth J z m j : j < J -> nth j (new_row J z m) None = (if (3 * 2 ^ Z.of_nat j <=? z + 1)%Z then after j 0 (get m (z - 2 ^ Z.of_nat j)) else None).
  Proof.
    intros Hj. unfold new_row, sizes. rewrite map_map. set (f := fun x : nat => _). rewrite (nth_indep _ None (f 0)) by (rewrite map_length, seq_length; lia).
    rewrite (map_nth f), seq_nth by lia. reflexivity.
  Qed.
  Lemma table_ok J t : forall ps, division ps -> list_sum ps <= t + 1 -> forall j, last ps 0 = 2 ^ j -> j < J ->
    ole (nth j (get (fst (table J t)) (Z.of_nat (list_sum ps))) None) (cost ps).
  Proof.
    induction t as [|t IH]; intros ps D HS j EL Hj.
    - assert (ps = [1]).
      { apply division_sum_1; auto. pose proof (division_last ps D) as (P & _ & _). pose proof (pow2_pos _ P). lia. }
      subst ps. cbn in EL. assert (j = 0) by (apply pow2_lt_inj; cbn; lia). subst j. exists 0%Z. split; [reflexivity|cbn; lia].
    - cbn [table]. pose proof (table_snd J t) as TS. pose proof (division_last ps D) as (P & _ & PL). pose proof (pow2_pos _ P) as PP.
      destruct (table J t) as [m z] eqn:ET. cbn [snd fst] in *.
      destruct (Nat.eq_dec (list_sum ps) (S t + 1)) as [E|N].
      + assert (EZ : Z.of_nat (list_sum ps) = Z.succ z) by lia. rewrite EZ, get_same, new_row_nth by exact Hj.
        pose proof (division_ne ps D) as NE. pose proof (snoc_ex ps NE) as ES. pose proof (sum_snoc ps NE) as SS. rewrite EL in *.
        rewrite ES in D. apply division_snoc_inv in D as [[E1 E2]|(D & _ & LE & CL)]; [rewrite E1, E2 in SS; cbn in SS; lia|].
        set (r := removelast ps) in *. pose proof (division_last r D) as ((i & Pi) & _ & L3). pose proof (Nat.pow_nonzero 2 i ltac:(lia)) as Z2.
        rewrite <- pow2_Z. destruct (Z.leb_spec (3 * Z.of_nat (2 ^ j)) (Z.succ z + 1)) as [_|]; [|lia].
        replace (Z.succ z - Z.of_nat (2 ^ j))%Z with (Z.of_nat (list_sum r)) by lia.
        assert (Hij : i <= j) by (apply (Nat.pow_le_mono_r_iff 2); lia).
        rewrite ES, cost_snoc, Pi by now apply division_ne.
        replace (if (2 ^ j =? 2 ^ i)%nat then unit else (big (2 ^ j) + unit)%Z) with (if (j =? i)%nat then unit else (bigl j + unit)%Z).
        * apply after_le; [lia|exact Hij|]. rewrite Nat.sub_0_r. apply (IH r D); [lia|exact Pi|lia].
        * rewrite Hbigl. destruct (Nat.eqb_spec j i) as [->|N]; [now rewrite Nat.eqb_refl|]. destruct (Nat.eqb_spec (2 ^ j) (2 ^ i)) as [X|_]; [apply pow2_lt_inj in X; contradiction|reflexivity].
      + rewrite get_other by lia. apply (IH ps D); auto. lia.
  Qed.

  (** no division for [n] blocks costs less than [c]: all the sums [z] before the last partition, downwards *)
  Fixpoint no_less (js : list (nat * Z)) (n c : Z) (m : row_map) (fuel : nat) (z : Z) : bool :=
    match fuel with
    | 0 => true
    | S fuel =>
        forallb (fun e : nat * Z => let '(j, w) := e in if (n <=? z + w)%Z && (2 * w <=? z + 1)%Z then match after j 0 (get m z) with None => true | Some v => (c <=? v)%Z end else true) js &&
        no_less js n c m fuel (Z.pred z)
    end.
  Lemma no_less_at J n c m : forall fuel z, no_less (sizes J) n c m fuel z = true -> forall u j, (z - Z.of_nat fuel < u <= z)%Z -> j < J ->
    (n <= u + 2 ^ Z.of_nat j)%Z -> (2 * 2 ^ Z.of_nat j <= u + 1)%Z -> match after j 0 (get m u) with None => True | Some v => (c <= v)%Z end.
  Proof.
    induction fuel as [|fuel IH]; intros z H u j Hu Hj H1 H2; [lia|].
    cbn [no_less] in H. apply andb_true_iff in H as [HA HB]. destruct (Z.eq_dec u z) as [->|N].
    - rewrite forallb_forall in HA. specialize (HA (j, 2 ^ Z.of_nat j)%Z). cbv beta iota in HA.
      assert (HI : In (j, 2 ^ Z.of_nat j)%Z (sizes J)) by (unfold sizes; apply in_map_iff; exists j; split; [reflexivity|apply in_seq; lia]). specialize (HA HI).
      destruct (Z.leb_spec n (z + 2 ^ Z.of_nat j)); [|lia]. destruct (Z.leb_spec (2 * 2 ^ Z.of_nat j) (z + 1)); [|lia]. cbn [andb] in HA.
      destruct (after j 0 (get m z)); [|exact Logic.I]. now apply Z.leb_le.
    - apply (IH _ HB u j); auto. lia.
  Qed.

  Fixpoint division_b (total previous : nat) (ps : list nat) : bool :=
    match ps with
    | [] => true
    | s :: t => (2 ^ Nat.log2 s =? s) && (previous <=? s) && (2 * s <=? total + 1) && division_b (total + s) s t
    end.
  Definition is_division (ps : list nat) : bool := match ps with 1 :: t => division_b 1 1 t | _ => false end.
  Lemma division_b_ok ps : forall pre, division pre -> division_b (list_sum pre) (last pre 0) ps = true -> division (pre ++ ps).
  Proof.
    induction ps as [|s ps IH]; intros pre D H; [now rewrite app_nil_r|]. cbn [division_b] in H. rewrite !andb_true_iff, Nat.eqb_eq, !Nat.leb_le in H.
    destruct H as [[[H1 H2] H3] H4]. replace (pre ++ s :: ps) with ((pre ++ [s]) ++ ps) by (rewrite <- app_assoc; reflexivity). apply IH.
    - apply division_more; auto. exists (Nat.log2 s). lia.
    - rewrite last_last, list_sum_app. cbn [list_sum fold_right]. rewrite Nat.add_0_r. exact H4.
  Qed.
  Lemma is_division_ok ps : is_division ps = true -> division ps.
  Proof. destruct ps as [|[|[|n]] ps]; try discriminate. intros H. apply (division_b_ok ps [1]); [constructor|exact H]. Qed.

  Definition check_cheapest (J : nat) (m : row_map) (n : nat) (ps : list nat) : bool :=
    is_division ps && (list_sum (removelast ps) <? n) && (n <=? list_sum ps) && (Z.of_nat n <? 2 * 2 ^ Z.of_nat J)%Z &&
    if n =? 1 then (cost ps <=? 0)%Z else no_less (sizes J) (Z.of_nat n) (cost ps) m (n - 1) (Z.of_nat n - 1).

  Hypothesis Hunit : (0 <= unit)%Z.
  Hypothesis Hbig : forall s, (0 <= big s)%Z.
  Lemma cost_nonneg ps : division ps -> (0 <= cost ps)%Z.
  Proof.
    intros D. induction D as [|ps s D IH P LE CL]; [cbn; lia|]. rewrite cost_snoc by now apply division_ne. specialize (Hbig s). destruct (s =? last ps 0); lia.
  Qed.

  Lemma check_cheapest_ok J t n ps : check_cheapest J (fst (table J t)) n ps = true -> n <= t + 2 -> cheapest unit big n ps.
  Proof.
    unfold check_cheapest. rewrite !andb_true_iff, !Nat.ltb_lt, Nat.leb_le, Z.ltb_lt. intros [[[[H1 H2] H3] H4] H5] HT.
    split; [now apply is_division_ok|]. split; [split; auto|]. intros ps' D [C1 C2]. destruct (Nat.eqb_spec n 1) as [->|N].
    - apply Z.leb_le in H5. pose proof (cost_nonneg ps' D). lia.
    - pose proof (division_ne ps' D) as NE. pose proof (snoc_ex ps' NE) as E. pose proof (sum_snoc ps' NE) as S. rewrite E in D.
      apply division_snoc_inv in D as [[E1 E2]|(D & P & LE & CL)]; [rewrite E1, E2 in S; cbn in S; lia|].
      set (r := removelast ps') in *. destruct P as [j P]. rewrite P in *. pose proof (division_last r D) as ((i & Pi) & _ & L3). pose proof (Nat.pow_nonzero 2 i ltac:(lia)) as Z2.
      rewrite <- pow2_Z in H4.
      assert (Hj : j < J).
      { apply (Nat.pow_lt_mono_r_iff 2); [lia|]. destruct (le_lt_dec (2 ^ J) (2 ^ j)); [|lia]. lia. }
      assert (Hij : i <= j) by (apply (Nat.pow_le_mono_r_iff 2); lia).
      pose proof (no_less_at J _ _ _ _ _ H5 (Z.of_nat (list_sum r)) j) as Q. rewrite <- pow2_Z in Q.
      specialize (Q ltac:(lia) Hj ltac:(lia) ltac:(lia)).
      destruct (after_le j 0 (get (fst (table J t)) (Z.of_nat (list_sum r))) i (cost r) ltac:(lia) Hij) as (v & Ev & Lv).
      { rewrite Nat.sub_0_r. apply table_ok; auto; lia. }
      rewrite Ev in Q. rewrite E, cost_snoc, Pi by now apply division_ne. rewrite Hbigl.
      destruct (Nat.eqb_spec j i) as [->|Nij].
      + rewrite Nat.eqb_refl. lia.
      + destruct (Nat.eqb_spec (2 ^ j) (2 ^ i)) as [X|_]; [apply pow2_lt_inj in X; contradiction|]. lia.
  Qed.
End Check.

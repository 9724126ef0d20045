(** * Smoothed values *)
From Verif.Model Require Import Base Arith Juce SmoothedValue.
From Verif.Proofs Require Import Lists ComplexAlg Blocks FFTProof.

Section Smooth.
  Context {A : arith}.
  Implicit Types v : smooth A.

  Definition sm_iter (n : nat) (v : smooth A) : smooth A := fst (sm_values n v).
  Definition gain (v : smooth A) (i : nat) : sample A := snd (sm_next (sm_iter i v)).

  Lemma sm_next_count v : sm_count (fst (sm_next v)) = sm_count v - 1.
  Proof. unfold sm_next. destruct (sm_count v) as [|[|c]] eqn:E; cbn; lia. Qed.
  Lemma sm_next_target v : sm_target (fst (sm_next v)) = sm_target v.
  Proof. unfold sm_next. destruct (sm_count v) as [|[|c]]; reflexivity. Qed.
  Lemma sm_next_steps v : sm_steps (fst (sm_next v)) = sm_steps v.
  Proof. unfold sm_next. destruct (sm_count v) as [|[|c]]; reflexivity. Qed.

  Lemma sm_iter_S n v : sm_iter (S n) v = sm_iter n (fst (sm_next v)).
  Proof.
    unfold sm_iter. cbn [sm_values]. destruct (sm_next v) as [v1 x]. cbn [fst].
    destruct (sm_values n v1). reflexivity.
  Qed.
  Lemma gain_S v i : gain v (S i) = gain (fst (sm_next v)) i.
  Proof. unfold gain. now rewrite sm_iter_S. Qed.
  Lemma gain_0 v : gain v 0 = snd (sm_next v).
  Proof. reflexivity. Qed.
  Lemma sm_values_eq : forall n v, sm_values n v = (sm_iter n v, tab n (gain v)).
  Proof.
    induction n as [|n IH]; intros v; [reflexivity|].
    rewrite sm_iter_S, tab_S, gain_0. cbn [sm_values].
    destruct (sm_next v) as [v1 x] eqn:E. rewrite IH. cbn [snd fst].
    f_equal. f_equal. apply tab_ext. intros i Hi. now rewrite gain_S, E.
  Qed.
  Lemma sm_iter_count n : forall v, sm_count (sm_iter n v) = sm_count v - n.
  Proof.
    induction n as [|n IH]; intros v; [cbn; lia|]. rewrite sm_iter_S, IH, sm_next_count. lia.
  Qed.
  Lemma sm_iter_target n : forall v, sm_target (sm_iter n v) = sm_target v.
  Proof. induction n as [|n IH]; intros v; [reflexivity|]. now rewrite sm_iter_S, IH, sm_next_target. Qed.
  Lemma sm_iter_add a b v : sm_iter (a + b) v = sm_iter b (sm_iter a v).
  Proof. revert v. induction a as [|a IH]; intros v; [reflexivity|]. cbn [Nat.add]. now rewrite !sm_iter_S, IH. Qed.
  Lemma gain_iter a v i : gain (sm_iter a v) i = gain v (a + i).
  Proof. unfold gain. now rewrite sm_iter_add. Qed.
  Lemma sm_iter_0 n v : sm_count v = 0 -> sm_iter n v = v.
  Proof.
    intros H. induction n as [|n IH]; [reflexivity|]. rewrite sm_iter_S.
    replace (fst (sm_next v)) with v; auto. unfold sm_next. now rewrite H.
  Qed.
  Lemma gain_done v i : sm_count v <= i + 1 -> gain v i = level (sm_target v).
  Proof.
    intros H. unfold gain. pose proof (sm_iter_count i v) as HC. pose proof (sm_iter_target i v) as HT.
    unfold sm_next. destruct (sm_count (sm_iter i v)) as [|[|c]] eqn:E; try lia; cbn; now rewrite HT.
  Qed.

  Lemma multiply_by_mk w m (f : nat -> nat -> sample A) v : 0 < w ->
    blk_multiply_by (mk w m f) v = (mk w m (fun c i => smul (f c i) (gain v i)), sm_iter m v).
  Proof.
    intros Hw. unfold blk_multiply_by, sm_smoothing. destruct (Nat.ltb_spec 0 (sm_count v)) as [H|H].
    - rewrite num_samples_mk by auto. rewrite sm_values_eq. f_equal.
      unfold mk. rewrite tab_map. apply tab_ext. intros c Hc. apply zipw_tab.
    - rewrite sm_iter_0 by lia. f_equal. unfold mk. rewrite tab_map. apply tab_ext. intros c Hc.
      rewrite tab_map. apply tab_ext. intros i Hi. rewrite gain_done by lia. reflexivity.
  Qed.
End Smooth.

(** * The convolver in IEEE arithmetic puts out what it puts out in rounded real arithmetic *)
From Coq Require Import Reals Lra ZArith Floats.SpecFloat.
From Flocq Require Import Core BinarySingleNaN.
From Verif.Model Require Import Base Arith ArithReal ArithSingle ArithIEEE Juce Partitioning PartitionSchemes Convolver.
From Verif.Spec Require Import Transform Buffers Signal Layout Precision Memory Overflow.
From Verif.Proofs Require Import Lists Blocks Streams ConvolverProof Param Ext ExtBounds ExtOut ExtRun ExtParam IEEESingle.
Open Scope R_scope.

Lemma F2_trans {X Y Z} (P : X -> Z -> Prop) (P' : Y -> Z -> Prop) (P'' : X -> Y -> Prop) l l' k :
  (forall x y z, In z k -> P x z -> P' y z -> P'' x y) -> Forall2 P l k -> Forall2 P' l' k -> Forall2 P'' l l'.
Proof.
  intros H HP. revert l' H. induction HP as [|x z l k Hx HP IH]; intros l' H HP'; inversion HP'; subst; constructor.
  - eapply H; eauto. now left.
  - apply IH; auto. intros a b c Hc. apply H. now right.
Qed.
Lemma F2_map_r {X Y Z} (P : X -> Y -> Prop) (P' : X -> Z -> Prop) (f : Y -> Z) l l' :
  (forall x y, In y l' -> P x y -> P' x (f y)) -> Forall2 P l l' -> Forall2 P' l (map f l').
Proof. intros H HP. induction HP; cbn; constructor; [apply H; auto; now left|apply IHHP; intros; apply H; auto; now right]. Qed.
Lemma F2_same {X} (l : list X) : Forall2 eq l l. Proof. induction l; constructor; auto. Qed.

Lemma F2_join {X X' Y Z} (P : X' -> Z -> Prop) (Q : Y -> Z -> Prop) (S : X -> Y -> Prop) (g : X -> X') l l' k :
  (forall x y z, In x l -> In z k -> P (g x) z -> Q y z -> S x y) -> Forall2 P (map g l) k -> Forall2 Q l' k -> Forall2 S l l'.
Proof.
  revert l' k. induction l as [|x l IH]; intros l' k H HP HQ; inversion HP; subst; inversion HQ; subst; constructor.
  - eapply H; eauto; now left.
  - eapply IH; eauto. intros a b c Ha Hc. apply H; now right.
Qed.
Lemma F2_nth_d {X Y} (P : X -> Y -> Prop) l l' i d d' : Forall2 P l l' -> P d d' -> P (nth i l d) (nth i l' d').
Proof. intros H Hd. revert i. induction H; intros [|i]; cbn; auto. Qed.
Lemma F2_block {A1 A2 : arith} (P : sample A1 -> sample A2 -> Prop) n m (b : audio A1) (b' : audio A2) :
  Forall2 (Forall2 P) b b' -> block_of n m b' -> block_of n m b.
Proof.
  intros H [H1 H2]. split; [rewrite <- H1; eapply F2_length; exact H|]. clear H1.
  induction H as [|c c' b b' Hc _ IH]; intros x Hx; [destruct Hx|]. destruct Hx as [<-|Hx].
  - rewrite <- (H2 c' (or_introl eq_refl)). eapply F2_length; exact Hc.
  - apply IH; auto. intros y Hy. apply H2. now right.
Qed.
Lemma F2_in_l {X Y} (P : X -> Y -> Prop) l l' x : Forall2 P l l' -> In x l -> exists y, In y l' /\ P x y.
Proof.
  induction 1 as [|a b l l' H _ IH]; intros Hx; [destruct Hx|]. destruct Hx as [<-|Hx]; [exists b; split; auto; now left|].
  destruct (IH Hx) as (y & H1 & H2). exists y. split; auto. now right.
Qed.

Section Link.
  Variable pow : R * R -> nat -> R * R.
  Notation F := (SingleWith pow).
  Notation E := (Ext pow).
  Definition liftb (b : list (list R)) : audio E := map (map (@Some R)) b.
  Lemma liftb_nth b c : nth c (liftb b) [] = map (@Some R) (nth c b []).
  Proof. apply (map_nth (map (@Some R)) b []). Qed.
  Lemma liftb_block n m b : @block_of F n m b -> @block_of E n m (liftb b).
  Proof.
    intros [H1 H2]. split; [unfold liftb; now rewrite map_length|]. intros c Hc. apply in_map_iff in Hc as (d & <- & Hd). rewrite map_length. now apply H2.
  Qed.
  Lemma unliftb_block n m b : @block_of E n m (liftb b) -> @block_of F n m b.
  Proof.
    intros [H1 H2]. split; [unfold liftb in H1; now rewrite map_length in H1|]. intros c Hc. rewrite <- (H2 (map (@Some R) c)); [now rewrite map_length|].
    unfold liftb. now apply in_map.
  Qed.
  Lemma liftb_below b c j : block_below Xmax b -> rb pow Xmax (nth j (nth c (liftb b) []) s0).
  Proof.
    intros H. rewrite liftb_nth. change (@s0 E) with (Some 0). rewrite (map_nth (@Some R)). exists (nth j (nth c b []) 0). split; [reflexivity|].
    assert (Z : Rabs 0 <= Xmax) by (rewrite Rabs_R0; unfold Xmax; lra).
    destruct (Nat.lt_ge_cases c (length b)) as [Hc|Hc]; [|rewrite (nth_overflow b) by exact Hc; destruct j; exact Z].
    destruct (Nat.lt_ge_cases j (length (nth c b []))) as [Hj|Hj]; [|rewrite (nth_overflow (nth c b [])) by exact Hj; exact Z].
    eapply H; apply nth_In; [exact Hc|exact Hj].
  Qed.
  Lemma liftb_channel c (bs : list (list (list R))) : @channel E c (map liftb bs) = map (@Some R) (@channel F c bs).
  Proof.
    unfold channel. rewrite map_map. induction bs as [|b bs IH]; [reflexivity|]. cbn [map concat].
    etransitivity; [apply f_equal; exact IH|]. rewrite liftb_nth. symmetry. apply map_app.
  Qed.
  Lemma channel_below (bs : list (list (list R))) c i : (forall b, In b bs -> block_below Xmax b) -> rb pow Xmax (@chan_fun E (map liftb bs) c i).
  Proof.
    intros H. unfold chan_fun. rewrite liftb_channel. change (@s0 E) with (Some 0). rewrite (map_nth (@Some R)).
    exists (nth i (@channel F c bs) 0). split; [reflexivity|].
    destruct (Nat.lt_ge_cases i (length (@channel F c bs))) as [Hi|Hi].
    2: { rewrite nth_overflow by exact Hi. rewrite Rabs_R0. unfold Xmax. lra. }
    assert (Hin : In (nth i (@channel F c bs) 0) (@channel F c bs)) by now apply nth_In.
    unfold channel in Hin at 2. apply in_concat in Hin as (l & Hl & Hx). apply in_map_iff in Hl as (b & <- & Hb).
    destruct (Nat.lt_ge_cases c (length b)) as [Hc|Hc]; [|rewrite (nth_overflow b) in Hx by exact Hc; destruct Hx].
    eapply (H b Hb); [apply nth_In; exact Hc|exact Hx].
  Qed.
  (** all samples of the blocks that came out *)
  Lemma all_some Y w (ins outs : list (audio E)) : length outs = length ins ->
    (forall i, (i < length ins)%nat -> exists k, block_of w k (nth i ins []) /\ block_of w k (nth i outs [])) ->
    (forall o, (o < w)%nat -> length (channel o outs) = length (channel o ins) /\
       forall t, (t < length (channel o ins))%nat -> rb pow Y (nth t (channel o outs) s0)) ->
    forall b, In b outs -> forall c, In c b -> forall x, In x c -> exists r, x = Some r /\ Rabs r <= Y.
  Proof.
    intros HL HS H b Hb c Hc x Hx.
    apply (In_nth _ _ []) in Hb as Hb'. destruct Hb' as (i & Hi & Ei). destruct (HS i ltac:(rewrite <- HL; exact Hi)) as (k & _ & [Hw0 _]).
    assert (Hw : length b = w) by (rewrite <- Ei; exact Hw0).
    apply (In_nth _ _ []) in Hc as (o & Ho & <-). destruct (H o ltac:(rewrite <- Hw; exact Ho)) as [Hlen Ht].
    assert (Hin : In x (channel o outs)).
    { unfold channel. apply in_concat. exists (nth o b []). split; [|exact Hx]. apply in_map_iff. exists b. auto. }
    apply (In_nth _ _ (@s0 E)) in Hin as (t & Htl & <-). destruct (Ht t ltac:(rewrite <- Hlen; exact Htl)) as (r & Er & Hr). eauto.
  Qed.
End Link.

Section Main.
  Variables (cosf sinf : nat -> spec_float) (powf : spec_float * spec_float -> nat -> spec_float * spec_float).
  Variable pow : R * R -> nat -> R * R.
  Notation I := (IEEE cosf sinf powf).
  Notation F := (SingleWith pow).
  Notation E := (Ext pow).
  Variables (Ri : rfft I) (Rs : rfft F).
  Hypothesis HRs : rfft_sized Rs.
  Hypothesis HRb : rfft_bounded (@rfft_fwd F Rs) (@rfft_inv F Rs).
  Hypothesis HRi : @same_transform I number (@rfft_fwd I Ri) (@rfft_inv I Ri) (@rfft_fwd F Rs) (@rfft_inv F Rs).
  Variables (kt : nat) (tau : R).
  Hypothesis (Htau : 0 <= tau <= / 4) (Hpow : pow_accurate pow (@cis F) (@cis_neg F) kt tau).
  Hypothesis Hroots : @same_roots I number kt pow.
  Definition same (x : sample F) (r : R) : Prop := x = r.
  Lemma same_eq l l' : Forall2 same l l' -> l = l'.
  Proof. induction 1 as [|x r l l' H _ IH]; [reflexivity|]. red in H. now subst. Qed.
  Lemma eq_same l : Forall2 same l l. Proof. induction l; constructor; auto. reflexivity. Qed.
  Lemma single_transform : @same_transform F same (@rfft_fwd F Rs) (@rfft_inv F Rs) (@rfft_fwd F Rs) (@rfft_inv F Rs).
  Proof.
    split.
    - apply (blind_fwd Rs HRs).
    - apply (blind_inv Rs HRs).
    - intros k d d' _ _ H _. rewrite (same_eq _ _ H). apply eq_same.
    - intros k d d' _ _ H _. rewrite (same_eq _ _ H). apply eq_same.
  Qed.
  Lemma single_roots : @same_roots F same kt pow. Proof. intros j e _ _. repeat split. Qed.

  Lemma two_runs w m (ir : audio I) (ir' : audio F) M spec e l : let n := length ir' in
    conv_block_size (Z.of_nat M) (cs_internal spec) = Ok (Z.of_nat (2 ^ e)) ->
    (0 < w)%nat -> (0 < n <= 1024)%nat -> block_of n m ir' -> (0 < m)%nat -> (Z.of_nat m <= 2 ^ 24)%Z ->
    GetPartitionScheme kGarciaResults (Z.of_nat (2 ^ e)) (Z.of_nat m) = Ok l ->
    (forall q, In q (tl l) -> 2 * (Z.to_nat (pl_size q) * 2 ^ e) <= 2 ^ kt)%nat ->
    (n <= length (cs_in spec))%nat -> (forall i, In i (firstn n (cs_in spec)) -> (i < w)%nat) ->
    (n <= length (cs_out spec))%nat -> (forall o, In o (firstn n (cs_out spec)) -> (o < w)%nat) ->
    same_block ir ir' -> block_below Xmax ir' ->
    exists c c', conv_make Ri ir M spec = Ok c /\ conv_make Rs ir' M spec = Ok c' /\
      forall sessions sessions', same_sessions sessions sessions' ->
      (forall blocks, In blocks sessions' -> @blocks_of F w blocks /\ forall b, In b blocks -> block_below Xmax b) ->
      exists s outs s' outs', feed_sessions (conv_process Ri) conv_reset c sessions = Ok (s, outs) /\
        feed_sessions (conv_process Rs) conv_reset c' sessions' = Ok (s', outs') /\ same_sessions outs outs' /\
        Forall2 (fun ins os : list (audio F) => length os = length ins /\
          (forall i, (i < length ins)%nat -> exists k, @block_of F w k (nth i ins []) /\ @block_of F w k (nth i os [])) /\
          forall b, In b os -> block_below (INR n * (21 * 2 ^ 111)) b) sessions' outs'.
  Proof.
    intros n Eb Hw Hn Hsh Hm H24 El Hkt Hi Hri Ho Hro Hir Hbelow.
    set (irE := liftb pow ir').
    assert (Ln : length irE = n) by (unfold irE, liftb; apply map_length).
    destruct (ext_run pow Rs HRs HRb kt tau Htau Hpow w m irE M spec e l) as (cE & EcE & HE); try (rewrite Ln; assumption); try assumption.
    { rewrite Ln. now apply liftb_block. }
    { intros c j. now apply liftb_below. }
    assert (Hkt' : forall l0, GetPartitionScheme kGarciaResults (Z.of_nat (2 ^ e)) (Z.of_nat m) = Ok l0 ->
       forall q, In q (tl l0) -> (2 * (Z.to_nat (pl_size q) * 2 ^ e) <= 2 ^ kt)%nat).
    { intros l0 E0. rewrite El in E0. injection E0 as <-. exact Hkt. }
    assert (Q1 : Forall2 (Forall2 (@Qx I number pow)) ir irE).
    { unfold irE, liftb. eapply F2_map_r; [|exact Hir]. intros c c' Hc Hcc. eapply F2_map_r; [|exact Hcc]. intros x r Hr Hx. exists r. split; auto. split; auto.
      eapply Hbelow; eassumption. }
    assert (Q2 : Forall2 (Forall2 (@Qx F same pow)) ir' irE).
    { unfold irE, liftb. eapply F2_map_r; [|apply F2_same]. intros c c' Hc ->. eapply F2_map_r; [|apply F2_same]. intros x r Hr ->. exists r. split; auto. split; [reflexivity|].
      eapply Hbelow; eassumption. }
    destruct (@rel_run I number pow Ri Rs HRs HRb kt tau Htau Hpow number_0 number_add number_sub number_mul number_half Hroots HRi
                m ir irE M spec e cE) as (ci & Eci & Hci); try assumption.
    { now rewrite Ln. } { rewrite Ln. now apply liftb_block. }
    destruct (@rel_run F same pow Rs Rs HRs HRb kt tau Htau Hpow) with (m := m) (ir := ir') (ir' := irE) (M := M) (spec := spec) (e := e) (cE := cE)
      as (cs & Ecs & Hcs); try assumption; try reflexivity.
    { intros x y a b -> -> _. reflexivity. } { intros x y a b -> -> _. reflexivity. } { intros x y a b -> -> _. reflexivity. }
    { apply single_roots. } { apply single_transform. } { now rewrite Ln. } { rewrite Ln. now apply liftb_block. }
    exists ci, cs. split; [exact Eci|]. split; [exact Ecs|]. intros ss ss' Hss Hses.
    set (ssE := map (map (liftb pow)) ss').
    destruct (HE ssE) as (sE & outsE & EfE & HoE).
    { intros bl Hbl. unfold ssE in Hbl. apply in_map_iff in Hbl as (bl' & <- & Hb'). destruct (Hses bl' Hb') as [Hbo _].
      intros b Hb. apply in_map_iff in Hb as (b' & <- & Hb2). destruct (Hbo b' Hb2) as (k & Hk). exists k. now apply liftb_block. }
    rewrite Ln in HoE.
    assert (S1 : Forall2 (Forall2 (Forall2 (Forall2 (@Qs I number pow)))) ss ssE).
    { unfold ssE. eapply F2_map_r; [|exact Hss]. intros u u' _ Hu. eapply F2_map_r; [|exact Hu]. intros b b' _ Hb. unfold liftb.
      eapply F2_map_r; [|exact Hb]. intros c c' _ Hc. eapply F2_map_r; [|exact Hc]. intros x r _ Hx. exact Hx. }
    assert (S2 : Forall2 (Forall2 (Forall2 (Forall2 (@Qs F same pow)))) ss' ssE).
    { unfold ssE. eapply F2_map_r; [|apply F2_same]. intros u u' _ ->. eapply F2_map_r; [|apply F2_same]. intros b b' _ ->. unfold liftb.
      eapply F2_map_r; [|apply F2_same]. intros c c' _ ->. eapply F2_map_r; [|apply F2_same]. intros x r _ ->. reflexivity. }
    destruct (Hci ss ssE sE outsE S1 EfE) as (s & outs & Ef & Ho1).
    destruct (Hcs ss' ssE sE outsE S2 EfE) as (s' & outs' & Ef' & Ho2).
    exists s, outs, s', outs'. split; [exact Ef|]. split; [exact Ef'|].
    assert (Hsome : forall u, In u outsE -> forall b, In b u -> forall c, In c b -> forall x, In x c -> exists r, x = Some r /\ Rabs r <= INR n * (21 * 2 ^ 111)).
    { intros u Hu. assert (G : forall k k', Forall2 (fun ins outs : list (audio E) => length outs = length ins /\
          (forall i, (i < length ins)%nat -> exists k, block_of w k (nth i ins []) /\ block_of w k (nth i outs [])) /\
          forall o, (o < w)%nat -> length (channel o outs) = length (channel o ins) /\
            ((forall c i, rb pow Xmax (chan_fun ins c i)) -> forall t, (t < length (channel o ins))%nat ->
               rb pow (INR n * (21 * 2 ^ 111)) (nth t (channel o outs) s0))) k k' -> In u k' -> (forall v, In v k -> In v ssE) ->
          exists ins, In ins ssE /\ length u = length ins /\
          (forall i, (i < length ins)%nat -> exists k, block_of w k (nth i ins []) /\ block_of w k (nth i u [])) /\
          forall o, (o < w)%nat -> length (channel o u) = length (channel o ins) /\
            ((forall c i, rb pow Xmax (chan_fun ins c i)) -> forall t, (t < length (channel o ins))%nat ->
               rb pow (INR n * (21 * 2 ^ 111)) (nth t (channel o u) s0))).
      { induction 1 as [|x y k k' Hxy Hk IH]; intros Hin Hsub; [destruct Hin|]. destruct Hin as [->|Hin].
        - exists x. split; [apply Hsub; now left|exact Hxy].
        - apply IH; auto. intros v Hv. apply Hsub. now right. }
      destruct (G _ _ HoE Hu (fun v Hv => Hv)) as (ins & Hins & H1 & H2 & H3).
      apply (all_some pow (INR n * (21 * 2 ^ 111)) w ins u H1 H2). intros o Hoo. destruct (H3 o Hoo) as [H4 H5]. split; [exact H4|]. apply H5.
      intros c i. unfold ssE in Hins. apply in_map_iff in Hins as (bs & <- & Hbs). apply channel_below. apply (Hses bs Hbs). }
    split; cycle 1.
    { eapply F2_join; [|exact HoE|exact Ho2]. intros ins os osE Hins HosE (A1 & A2 & _) HQ. rewrite map_length in A1, A2.
      assert (LO : length os = length osE) by (eapply F2_length; exact HQ).
      split; [rewrite LO; exact A1|]. split.
      - intros i Hi'. destruct (A2 i Hi') as (k & K1 & K2). exists k. split.
        + apply (unliftb_block pow). refine (eq_ind _ (@block_of E w k) K1 _ _). exact (map_nth (liftb pow) ins [] i).
        + eapply F2_block; [|exact K2]. apply F2_nth_d; [exact HQ|constructor].
      - intros b Hb c x Hc Hx. destruct (F2_in_l _ _ _ _ HQ Hb) as (bE & HbE & Q3). destruct (F2_in_l _ _ _ _ Q3 Hc) as (cc & HcE & Q4).
        destruct (F2_in_l _ _ _ _ Q4 Hx) as (xE & HxE & Q5). destruct (Hsome osE HosE bE HbE cc HcE xE HxE) as (r & -> & Hr). cbn [Qs] in Q5. red in Q5.
        subst x. exact Hr. }
    eapply F2_trans; [|exact Ho1|exact Ho2]. intros u u' uE HuE H1 H2.
    eapply F2_trans; [|exact H1|exact H2]. intros b b' bE HbE H3 H4.
    eapply F2_trans; [|exact H3|exact H4]. intros c c' cc HcE H5 H6.
    eapply F2_trans; [|exact H5|exact H6]. intros x x' xE HxE H7 H8.
    destruct (Hsome uE HuE bE HbE cc HcE xE HxE) as (r & -> & _). cbn [Qs] in *. red in H8. subst x'. exact H7.
  Qed.
End Main.

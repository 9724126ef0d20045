(** * Time stamps: an arithmetic that computes how old the input is that a sample depends on *)
From Verif.Model Require Import Base Arith Juce Partitioning PartitionSchemes UniformPartitionedConvolver TimeDistributedUPC
     TimeDistributedUPCMulti TimeDistributedNUPC Convolver.
From Verif.Spec Require Import Transform Buffers Signal Layout Memory.
From Verif.Proofs Require Import Lists ComplexAlg Butterfly FFTProof Blocks RealFFTProof Streams TDUPCProof TDUPCStream UPCFloat NUPCFloat NUPCMake
     ConvolverFloat.

(** [Some t]: depends on nothing from before [t]; [None]: on no input at all *)
Definition older (a b : option nat) : option nat :=
  match a, b with None, _ => b | _, None => a | Some x, Some y => Some (Nat.min x y) end.
Definition oldest (l : list (option nat)) : option nat := fold_right older None l.
Definition Stamp : arith := {|
  sample := option nat; s0 := None; s1 := None; sadd := older; ssub := older; smul := fun a _ => a; sopp := fun a => a;
  shalf := None; sinvn := fun _ => None; scos := fun _ => None; ssin := fun _ => None; spow := fun w _ => w |}.
Lemma stamp_zero : zero_laws Stamp. Proof. split; reflexivity. Qed.

(** not before [t] *)
Definition since (t : nat) (a : option nat) : Prop := match a with None => True | Some x => t <= x end.
Lemma since_older t a b : since t a -> since t b -> since t (older a b).
Proof. destruct a, b; cbn; lia. Qed.
Lemma since_mono t t' a : t <= t' -> since t' a -> since t a.
Proof. destruct a; cbn; lia. Qed.
Lemma since_oldest t l : (forall a, In a l -> since t a) -> since t (oldest l).
Proof. induction l as [|a l IH]; cbn [oldest fold_right]; intros H; [exact I|]. apply since_older; [apply H; now left|apply IH; intros; apply H; now right]. Qed.
Lemma oldest_since t l a : since t (oldest l) -> In a l -> since t a.
Proof.
  induction l as [|b l IH]; cbn [oldest fold_right]; intros H Hin; [destruct Hin|destruct Hin as [->|Hin]].
  - destruct a; cbn in *; auto. destruct (fold_right older None l); cbn in H; lia.
  - apply IH; auto. fold (oldest l) in H. destruct b, (oldest l); cbn in *; auto; lia.
Qed.

(** a transform of stamps: every value depends on all values; as many values as [R] leaves *)
Definition stamp_rfft {A : arith} (R : rfft A) : rfft Stamp := {|
  rfft_fwd := fun k (l : list (sample Stamp)) => repeat (oldest l) (length (rfft_fwd R k (repeat s0 (length l)))) : list (sample Stamp);
  rfft_inv := fun k (l : list (sample Stamp)) => repeat (oldest l) (length (rfft_inv R k (repeat s0 (length l)))) : list (sample Stamp) |}.

Section Since.
  Variable t : nat.
  Notation S := (sample Stamp).
  Notation C := (cplx Stamp).
  Definition csince (z : C) : Prop := since t (fst z) /\ since t (snd z).
  Lemma csince_add z z' : csince z -> csince z' -> csince (cadd z z').
  Proof. intros [] []. split; apply since_older; auto. Qed.
  Lemma csince_sub z z' : csince z -> csince z' -> csince (csub z z').
  Proof. intros [] []. split; apply since_older; auto. Qed.
  Lemma csince_mul z w : csince z -> csince (cmul z w).
  Proof. intros []. split; apply since_older; auto. Qed.
  Lemma csince_scale z w : csince z -> csince (cscale z w).
  Proof. intros []. split; auto. Qed.
  Lemma csince_0 : csince c0. Proof. split; exact I. Qed.
  Lemma csince_sum n f : (forall i, i < n -> csince (f i)) -> csince (csum n f).
  Proof. intros H. induction n as [|n IH]; cbn [csum]; [apply csince_0|]. apply csince_add; [apply IH; auto|apply H; auto]. Qed.
  Definition lsince (l : list C) : Prop := forall i, csince (nth i l c0).
  Lemma lsince_tab n f : (forall i, i < n -> csince (f i)) -> lsince (tab n f).
  Proof.
    intros H i. destruct (Nat.lt_ge_cases i n) as [Hi|Hi]; [rewrite tab_nth by auto; auto|].
    rewrite nth_overflow by (now rewrite tab_length). apply csince_0.
  Qed.
  Lemma lsince_firstn n l : lsince l -> lsince (firstn n l).
  Proof.
    intros H i. destruct (Nat.lt_ge_cases i n) as [Hi|Hi].
    - specialize (H i). rewrite <- (firstn_skipn n l) in H. destruct (Nat.lt_ge_cases i (length (firstn n l))) as [Hl|Hl].
      + now rewrite app_nth1 in H by auto.
      + rewrite nth_overflow by auto. apply csince_0.
    - rewrite nth_overflow; [apply csince_0|]. rewrite firstn_length. lia.
  Qed.
  Lemma lsince_skipn n l : lsince l -> lsince (skipn n l).
  Proof. intros H i. rewrite nth_skipn'. apply H. Qed.
  Lemma lsince_app l l' : lsince l -> lsince l' -> lsince (l ++ l').
  Proof. intros H H' i. destruct (Nat.lt_ge_cases i (length l)) as [Hi|Hi]; [rewrite app_nth1 by auto; apply H|rewrite app_nth2 by auto; apply H']. Qed.
  Lemma lsince_dif : forall k l, lsince l -> lsince (dif k l).
  Proof.
    induction k as [|k IH]; intros l H; auto. cbn [dif]. apply lsince_app; apply IH.
    - unfold lo. apply lsince_tab. intros i Hi. apply csince_add; apply H.
    - unfold hi. apply lsince_tab. intros i Hi. apply csince_mul, csince_sub; apply H.
  Qed.
  Lemma lsince_idif : forall k l, lsince l -> lsince (idif k l).
  Proof.
    induction k as [|k IH]; intros l H; auto. cbn [idif].
    pose proof (IH _ (lsince_firstn (2 ^ k) _ H)) as H1. pose proof (IH _ (lsince_skipn (2 ^ k) _ H)) as H2.
    unfold merge. apply lsince_app; apply lsince_tab; intros i Hi; apply csince_scale; first [apply csince_add|apply csince_sub]; auto;
      apply csince_mul; auto.
  Qed.
End Since.

Lemma lsince_pairs t : forall l : list (sample Stamp), (forall a, In a l -> since t a) -> lsince t (pairs l).
Proof.
  fix F 1. intros [|a [|b l]] H i; try (destruct i; apply csince_0). destruct i as [|i]; cbn [pairs nth].
  - split; apply H; cbn; auto.
  - apply F. intros; apply H; cbn; auto.
Qed.
Lemma pairs_lsince t n : forall l : list (sample Stamp), length l = 2 * n -> lsince t (pairs l) -> forall a, In a l -> since t a.
Proof.
  induction n as [|n IH]; intros [|u [|v l]] E H a Ha; cbn [length] in E; try lia; try (destruct Ha; fail).
  pose proof (H 0) as [H1 H2]. destruct Ha as [<-|[<-|Ha]]; auto. apply (IH l); auto; [lia|]. intros i. apply (H (S i)).
Qed.

(** ** the stamps of what the convolvers put out *)
Section TD.
  Notation S := (sample Stamp).
  Variable x : nat -> S.
  Hypothesis Hx : forall i, since (Datatypes.S i) (x i).

  Lemma since_x t i : t <= i -> since (Datatypes.S t) (x i).
  Proof. intros. eapply since_mono; [|apply Hx]. lia. Qed.
  Lemma since_ago t e d : t + d <= e -> since (Datatypes.S t) (ago x e d).
  Proof. intros. unfold ago. destruct (d <=? e); [apply since_x; lia|exact I]. Qed.

  Lemma td_since b s K h p0 t : since (Datatypes.S (t - (K + 3) * 2 ^ (s + b))) (@tdy Stamp b s K h p0 x t).
  Proof.
    unfold tdy. set (P := 2 ^ (s + b)). set (x' := fun i => ago x i (p0 * 2 ^ b)). set (T := t - (K + 3) * P).
    assert (HP : 0 < P) by apply pow2_pos.
    pose proof (Nat.div_mod (t + p0 * 2 ^ b) P ltac:(lia)) as E. pose proof (Nat.mod_upper_bound (t + p0 * 2 ^ b) P ltac:(lia)) as Eq.
    set (m := (t + p0 * 2 ^ b) / P) in *. set (q := (t + p0 * 2 ^ b) mod P) in *.
    assert (HZ : forall i j, i <= 3 -> since (Datatypes.S T) (Zv (Datatypes.S (s + b)) P K h x' m i j)).
    { intros i j Hi. unfold Zv. apply lsince_idif. apply lsince_tab. intros r Hr. unfold Gv. apply csince_sum. intros a Ha.
      apply csince_mul. apply lsince_dif. unfold Xb. apply lsince_tab. intros e He. split; [|exact I]. cbn [fst creal].
      unfold xw. destruct (e <? P); [|exact I]. unfold ago at 1. destruct (Nat.leb_spec ((i + a) * P) (m * P + e)); [|exact I].
      unfold x', ago. destruct (Nat.leb_spec (p0 * 2 ^ b) (m * P + e - (i + a) * P)); [|exact I].
      apply since_x. unfold T. assert ((i + a) * P + P <= (K + 3) * P) by nia. nia. }
    apply since_older; apply HZ; lia.
  Qed.
End TD.

Section Out.
  Context {A : arith} (R : rfft A).
  Notation S := (sample Stamp).
  Notation TR := (stamp_rfft R).
  Notation sig := (nat -> nat -> S).
  Definition stamped (x : sig) : Prop := forall c i, since (Datatypes.S i) (x c i).

  Lemma bin_since t k w b : (forall j, j < 2 ^ k -> since t (w j)) -> csince t (fbin TR k w b).
  Proof.
    intros H. unfold fbin. apply lsince_pairs. intros a Ha. apply repeat_spec in Ha. subst a. apply since_oldest.
    intros a Ha. apply (In_nth _ _ None) in Ha as (j & Hj & <-). rewrite tab_length in Hj. rewrite tab_nth by auto. destruct (Nat.ltb_spec j (2 ^ k)); [auto|exact I].
  Qed.
  Lemma upc_since P k K h x c t v : stamped x -> 0 < K -> 2 * P <= 2 ^ k -> upc_out TR P k K h x c t v ->
    since (Datatypes.S (t - (K * P + 2 ^ k))) v.
  Proof.
    intros Hx HK HF (m & pos & w & d & Hpos & Et & _ & Hp & Ld & Hd & ->).
    set (T := t - (K * P + 2 ^ k)).
    assert (Hall : forall a, In a d -> since (Datatypes.S T) a).
    { apply (pairs_lsince _ (2 ^ k)); [exact Ld|]. intros b. destruct (Nat.lt_ge_cases b (2 ^ k)) as [Hb|Hb].
      2: { rewrite nth_overflow; [apply csince_0|]. rewrite (pairs_length (2 ^ k)) by exact Ld. exact Hb. }
      rewrite Hd by auto. apply csince_add.
      - apply csince_mul, bin_since. intros j Hj. destruct (Hp j Hj) as [->|(i & Hi & ->)]; [exact I|].
        eapply since_mono; [|apply Hx]. unfold T. destruct K; [lia|]. cbn. lia.
      - apply csince_sum. intros i Hi. apply csince_mul. unfold wbin. destruct (_ <=? _); [apply csince_0|].
        apply bin_since. intros j Hj. unfold ago. destruct (Nat.leb_spec (Datatypes.S i * P + (2 ^ k - P)) (m * P + j)); [|exact I].
        eapply since_mono; [|apply Hx]. unfold T. assert (Datatypes.S i * P + P <= K * P) by nia. lia. }
    cbn [rfft_inv stamp_rfft]. set (L := length _).
    destruct (Nat.lt_ge_cases pos L) as [H|H]; [rewrite repeat_tab, tab_nth by auto|rewrite nth_overflow by (now rewrite repeat_length); exact I].
    now apply since_oldest.
  Qed.

  Variables (n m : nat) (ir : audio Stamp).
  Hypothesis (Hn : 0 < n) (Hl : 0 < length ir) (Hm : 0 < m).
  Variables (B b k Ku off : nat) (ds : list (piece Stamp)).
  Hypothesis (HB : 0 < B) (HBb : ds = [] \/ B = 2 ^ b).
  Hypothesis (HF : 2 * B <= 2 ^ k < 4 * B) (HKu : 0 < Ku) (HKl : (Ku - 1) * B < m).
  Lemma pieces_short : forall l o ds, @pieces Stamp m ir B o l ds -> forall d, In d ds ->
    0 < pc_s d /\ 2 * ((pc_K d + 3) * (2 ^ pc_s d * B) + B) <= 5 * m.
  Proof.
    induction l as [|a l IH]; intros o [|d0 ds0] H d Hd; cbn [pieces] in H; try destruct Hd; try tauto.
    - subst d0. destruct H as (num & Hs & Hnum & ((HK & _) & HKs) & _ & _ & Ho & Eo & _). split; auto.
      set (P := 2 ^ pc_s d * B) in *. assert ((pc_K d + 3) * P = (pc_K d - 1) * P + 4 * P) by nia.
      assert (0 < P) by (unfold P; pose proof (pow2_pos (pc_s d)); nia). lia.
    - destruct H as (num & _ & _ & _ & _ & _ & _ & _ & _ & _ & H). eapply IH; eauto.
  Qed.

  Lemma nout_since l o x c t v : stamped x -> @pieces Stamp m ir B o l ds -> output TR ir B b k Ku off ds x c t v ->
    since (Datatypes.S (t - settling m B)) v.
  Proof.
    intros Hx Hp (vu & Hu & Hv).
    assert (Hvu : since (Datatypes.S (t - settling m B)) vu).
    { eapply since_mono; [|eapply upc_since; eauto; lia]. unfold settling.
      assert (m <= 5 * m / 2) by (apply Nat.div_le_lower_bound; lia). assert (Ku * B = (Ku - 1) * B + B) by nia. lia. }
    pose proof (pieces_short l o ds Hp) as Hsh.
    destruct ds as [|d0 ds0] eqn:Eds; [now subst v|]. rewrite <- Eds in *. destruct HBb as [E|EB]; [congruence|].
    destruct Hv as (vr & Hr & ->). apply since_older; auto. clear Hu Hvu vu.
    unfold rcell in Hr. destruct (Nat.ltb_spec t B); [subst vr; exact I|].
    assert (Hacc : forall l a, (forall d, In d l -> In d ds) -> since (Datatypes.S (t - settling m B)) a ->
              accs B (p_out b) x l c t a vr -> since (Datatypes.S (t - settling m B)) vr).
    { induction l0 as [|d l0 IH]; intros a Hin Ha Hac; cbn [accs] in Hac; [now subst vr|].
      destruct Hac as (y & (p0 & Ey) & Hac). apply (IH (@sadd Stamp a y)); [intros; apply Hin; now right| |exact Hac].
      apply since_older; auto. destruct (Hsh d (Hin d (or_introl eq_refl))) as [Hs HD]. rewrite Ey.
      eapply since_mono; [|apply td_since; intros; apply Hx]. rewrite Nat.pow_add_r, <- EB.
      assert ((pc_K d + 3) * (2 ^ pc_s d * B) + B <= 5 * m / 2) by (apply Nat.div_le_lower_bound; lia). unfold settling. lia. }
    eapply Hacc; [| |exact Hr]; [auto|exact I].
  Qed.

  (** ** with routing *)
  Lemma rmix_since t spec : forall q f o, (forall ch, ch < q -> since t (f ch)) -> since t (@rmix Stamp spec q f o).
  Proof.
    induction q as [|q IH]; intros f o H; cbn [rmix]; [exact I|]. destruct (_ =? _); [|apply IH; auto].
    apply since_older; [apply IH; auto|apply H; auto].
  Qed.
End Out.

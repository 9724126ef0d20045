(** * The convolvers treat samples uniformly

    No branch, index or loop bound of the convolvers depends on the value of a sample.  Hence: for two
    arithmetics and a relation between their samples that the operations preserve, the convolvers take related
    inputs to related outputs, and succeed or fail together.  Signals are only ever multiplied by constants (roots
    of unity and the response), so there are two relations: [Q] between signals, [Qk] between constants. *)
From Verif.Model Require Import Base Arith Juce ComplexBuffer FrequencyDelayLine SplitBlock CircularBuffer FFT
     FFTDecomposition DecompositionSchedule Partitioning PartitionSchemes UniformPartitionedConvolver
     TimeDistributedUPC TimeDistributedUPCMulti TimeDistributedNUPC Convolver.
From Verif.Spec Require Import Signal.
Set Implicit Arguments.

(** ** outcomes, arrays, loops *)
Inductive Rres {X Y} (P : X -> Y -> Prop) : res X -> res Y -> Prop :=
| ROk : forall x y, P x y -> Rres P (Ok x) (Ok y)
| RUndef : Rres P Undef Undef
| RDiverge : Rres P Diverge Diverge.
Inductive Rpair {X Y X' Y'} (P : X -> Y -> Prop) (P' : X' -> Y' -> Prop) : X * X' -> Y * Y' -> Prop :=
| RPair : forall x y x' y', P x y -> P' x' y' -> Rpair P P' (x, x') (y, y').

Lemma Rbind X Y X' Y' (P : X -> Y -> Prop) (P' : X' -> Y' -> Prop) r s f g :
  Rres P r s -> (forall x y, P x y -> Rres P' (f x) (g y)) -> Rres P' (bind r f) (bind s g).
Proof. intros [x y H| |] Hf; cbn; [auto|constructor..]. Qed.
Lemma Rrefl X (r : res X) : Rres eq r r.
Proof. destruct r; now constructor. Qed.
Lemma Rif X Y (P : X -> Y -> Prop) (b : bool) r s r' s' :
  (b = true -> Rres P r s) -> (b = false -> Rres P r' s') -> Rres P (if b then r else r') (if b then s else s').
Proof. destruct b; auto. Qed.

Lemma F2_length X Y (P : X -> Y -> Prop) l l' : Forall2 P l l' -> length l = length l'.
Proof. induction 1; cbn; auto. Qed.
Lemma Rget X Y (P : X -> Y -> Prop) l l' i : Forall2 P l l' -> Rres P (get l i) (get l' i).
Proof.
  unfold get. intros H. revert i. induction H; intros [|i]; cbn; try constructor; auto.
Qed.
Lemma Rset X Y (P : X -> Y -> Prop) l l' i v v' : Forall2 P l l' -> P v v' -> Rres (Forall2 P) (set l i v) (set l' i v').
Proof.
  unfold set. intros H Hv. rewrite (F2_length H). destruct (_ <? _); constructor.
  revert i. induction H; intros [|i]; cbn; constructor; auto.
Qed.
Lemma Rfor_from X Y (P : X -> Y -> Prop) f g n : (forall i x y, P x y -> Rres P (f i x) (g i y)) ->
  forall a x y, P x y -> Rres P (for_from a n f x) (for_from a n g y).
Proof. intros H. induction n; intros a x y Hxy; cbn; [now constructor|]. eapply Rbind; eauto. Qed.
Lemma Rfor_from_in X Y (P : X -> Y -> Prop) f g n : forall a, (forall i x y, a <= i < a + n -> P x y -> Rres P (f i x) (g i y)) ->
  forall x y, P x y -> Rres P (for_from a n f x) (for_from a n g y).
Proof.
  induction n; intros a H x y Hxy; cbn; [now constructor|]. eapply Rbind; [apply H; [lia|auto]|]. intros. apply IHn; auto.
  intros; apply H; auto; lia.
Qed.
Lemma Rfor_down_in X Y (P : X -> Y -> Prop) f g n : (forall i x y, 0 < i <= n -> P x y -> Rres P (f i x) (g i y)) ->
  forall x y, P x y -> Rres P (for_down n f x) (for_down n g y).
Proof.
  induction n; intros H x y Hxy; cbn; [now constructor|]. eapply Rbind; [apply H; [lia|auto]|]. intros. apply IHn; auto.
  intros; apply H; auto; lia.
Qed.
Lemma Rfor_n X Y (P : X -> Y -> Prop) f g n : (forall i x y, P x y -> Rres P (f i x) (g i y)) ->
  forall x y, P x y -> Rres P (for_n n f x) (for_n n g y).
Proof. intros. now apply Rfor_from. Qed.
Lemma Rfor_down X Y (P : X -> Y -> Prop) f g n : (forall i x y, P x y -> Rres P (f i x) (g i y)) ->
  forall x y, P x y -> Rres P (for_down n f x) (for_down n g y).
Proof. intros H. induction n; intros x y Hxy; cbn; [now constructor|]. eapply Rbind; eauto. Qed.
Lemma RmapM X Y X' Y' (P : X -> Y -> Prop) (P' : X' -> Y' -> Prop) f g l l' :
  (forall x y, P x y -> Rres P' (f x) (g y)) -> Forall2 P l l' -> Rres (Forall2 P') (mapM f l) (mapM g l').
Proof.
  intros H. induction 1; cbn; [constructor; constructor|]. eapply Rbind; eauto. intros. eapply Rbind; eauto.
  intros. constructor. now constructor.
Qed.
Lemma RmapM_same X X' Y' (P' : X' -> Y' -> Prop) (f : X -> res X') (g : X -> res Y') l :
  (forall x, Rres P' (f x) (g x)) -> Rres (Forall2 P') (mapM f l) (mapM g l).
Proof.
  intros H. induction l; cbn; [constructor; constructor|]. eapply Rbind; [apply H|]. intros. eapply Rbind; eauto.
  intros. constructor. now constructor.
Qed.
Lemma Rwhile X Y (P : X -> Y -> Prop) cf cg f g fuel :
  (forall x y, P x y -> cf x = cg y) -> (forall x y, P x y -> Rres P (f x) (g y)) ->
  forall x y, P x y -> Rres P (while_ fuel cf f x) (while_ fuel cg g y).
Proof.
  intros Hc H. induction fuel; intros x y Hxy; cbn; rewrite (Hc _ _ Hxy); destruct (cg y); try constructor; auto.
  eapply Rbind; eauto.
Qed.

Section F2.
  Variables (X Y : Type) (P : X -> Y -> Prop).
  Lemma F2_firstn n l l' : Forall2 P l l' -> Forall2 P (firstn n l) (firstn n l').
  Proof. intros H. revert n. induction H; intros [|n]; cbn; constructor; auto. Qed.
  Lemma F2_skipn n l l' : Forall2 P l l' -> Forall2 P (skipn n l) (skipn n l').
  Proof. intros H. revert n. induction H; intros [|n]; cbn; try constructor; auto. Qed.
  Lemma F2_repeat n x y : P x y -> Forall2 P (repeat x n) (repeat y n).
  Proof. induction n; cbn; constructor; auto. Qed.
  Lemma F2_map X' Y' (P' : X' -> Y' -> Prop) f g l l' : (forall x y, P x y -> P' (f x) (g y)) ->
    Forall2 P l l' -> Forall2 P' (map f l) (map g l').
  Proof. intros H. induction 1; cbn; constructor; auto. Qed.
End F2.
Lemma F2_zipw X Y X1 Y1 X2 Y2 (P : X -> Y -> Prop) (P1 : X1 -> Y1 -> Prop) (P2 : X2 -> Y2 -> Prop) f g l l' m m' :
  (forall x y x1 y1, P x y -> P1 x1 y1 -> P2 (f x x1) (g y y1)) ->
  Forall2 P l l' -> Forall2 P1 m m' -> Forall2 P2 (zipw f l m) (zipw g l' m').
Proof. intros H HF. revert m m'. induction HF; intros m m' Hm; cbn; [constructor|]. destruct Hm; constructor; auto. Qed.

(** one step through the code *)
Ltac ps :=
  match goal with
  | H : ?x = ?y |- _ => is_var x; is_var y; subst x
  | |- Rres _ (bind _ _) (bind _ _) => eapply Rbind; [|cbv beta; intros]
  | |- Rres _ (Ok _) (Ok _) => constructor
  | |- Rres _ (if ?c then _ else _) (if ?c then _ else _) => destruct c eqn:?
  | |- Rres _ (get _ _) (get _ _) => apply Rget
  | |- Rres _ (set _ _ _) (set _ _ _) => apply Rset
  | |- Rres _ (for_n ?n _ _) (for_n ?n _ _) => apply Rfor_n; intros
  | |- Rres _ (for_from _ ?n _ _) (for_from _ ?n _ _) => apply Rfor_from; intros
  | |- Rres _ (for_down ?n _ _) (for_down ?n _ _) => apply Rfor_down; intros
  | |- Rres _ (assert ?b) (assert ?b) => apply Rrefl
  | |- Rres _ (umod ?a ?b) (umod ?a ?b) => apply Rrefl
  | |- Rres _ (usub ?a ?b) (usub ?a ?b) => apply Rrefl
  | H : Rpair _ _ ?x ?y |- Rres _ (match ?x with (_, _) => _ end) _ => destruct H
  | |- Rpair _ _ (_, _) (_, _) => constructor
  end.
Ltac dp := match goal with |- Rres _ (match ?z with (_, _) => _ end) _ => destruct z end.
Ltac pgo := repeat (eauto; ps); eauto.


Section Bufs.
  Context {A1 A2 : arith}.
  Inductive RcbG (Q : sample A1 -> sample A2 -> Prop) : cbuf A1 -> cbuf A2 -> Prop :=
  | MkRcb : forall n d d', @Forall2 (list (cplx A1)) (list (cplx A2)) (@Forall2 (cplx A1) (cplx A2) (Rpair Q Q)) d d' ->
      RcbG Q {| cb_points := n; cb_data := d |} {| cb_points := n; cb_data := d' |}.
  Variables Q Q' : sample A1 -> sample A2 -> Prop.
  Lemma p_cb_data b b' : RcbG Q b b' -> @Forall2 (list (cplx A1)) (list (cplx A2)) (@Forall2 (cplx A1) (cplx A2) (Rpair Q Q)) (cb_data b) (cb_data b').
  Proof. now intros []. Qed.
  Lemma p_cb_points b b' : RcbG Q b b' -> cb_points b = cb_points b'. Proof. now intros []. Qed.
  Lemma p_cb_channels b b' : RcbG Q b b' -> cb_num_channels b = cb_num_channels b'.
  Proof. intros [? ? ? H]. exact (F2_length H). Qed.
  Lemma p_cb_read b b' c : RcbG Q b b' -> Rres (@Forall2 (cplx A1) (cplx A2) (Rpair Q Q)) (cb_read b c) (cb_read b' c).
  Proof. intros [? ? ? H]. unfold cb_read. now apply Rget. Qed.
End Bufs.
Lemma p_same {A1 A2 : arith} (Q Q' : sample A1 -> sample A2 -> Prop) a a' b b' :
  RcbG Q a a' -> RcbG Q' b b' -> cb_same_dims a b = cb_same_dims a' b'.
Proof.
  intros Ha Hb. unfold cb_same_dims. now rewrite (p_cb_channels Ha), (p_cb_channels Hb), (p_cb_points Ha), (p_cb_points Hb).
Qed.

Section Param.
  Context {A1 A2 : arith}.
  Variables Q Qk : sample A1 -> sample A2 -> Prop.
  Record respected : Prop := {
    r_0 : Q s0 s0;
    r_add : forall x y x' y', Q x y -> Q x' y' -> Q (sadd x x') (sadd y y');
    r_sub : forall x y x' y', Q x y -> Q x' y' -> Q (ssub x x') (ssub y y');
    r_mul : forall x y x' y', Q x y -> Qk x' y' -> Q (smul x x') (smul y y');
    r_opp : forall x y, Qk x y -> Qk (sopp x) (sopp y);
    r_half : Qk shalf shalf;
    r_cos : forall n, Qk (scos n) (scos n);
    r_sin : forall n, Qk (ssin n) (ssin n);
    r_pow : forall w w' e, Rpair Qk Qk w w' -> Rpair Qk Qk (spow w e) (spow w' e)
  }.
  (** The same, where only the powers of roots are used that transforms of at most [n] points need, for sizes [n] in [okn]. *)
  Variable okn : nat -> Prop.
  Record respects : Prop := {
    s_0 : Q s0 s0;
    s_add : forall x y x' y', Q x y -> Q x' y' -> Q (sadd x x') (sadd y y');
    s_sub : forall x y x' y', Q x y -> Q x' y' -> Q (ssub x x') (ssub y y');
    s_mul : forall x y x' y', Q x y -> Qk x' y' -> Q (smul x x') (smul y y');
    s_half : Qk shalf shalf;
    s_pow2 : forall n d, okn n -> n <> 0 -> d <= Nat.log2 n -> okn (2 ^ d);
    s_seg : forall n i, okn n -> okn (n / 2 ^ i);
    s_root : forall n e, okn n -> 2 * e < n -> Rpair Qk Qk (spow (cis n) e) (spow (cis n) e);
    s_root_neg : forall n e, okn n -> 2 * e < n -> Rpair Qk Qk (spow (cis_neg n) e) (spow (cis_neg n) e)
  }.
  Hypothesis HQ : respects.
  Notation Ql := (Forall2 Q).
  Notation Qa := (Forall2 (Forall2 Q)).
  Notation Qc := (Rpair Q Q).
  Notation Qck := (Rpair Qk Qk).
  Notation Rcb := (RcbG Q).
  Notation RcbK := (RcbG Qk).
  Notation Qcl := (@Forall2 (cplx A1) (cplx A2) (Rpair Q Q)).
  Notation Qcd := (@Forall2 (list (cplx A1)) (list (cplx A2)) (@Forall2 (cplx A1) (cplx A2) (Rpair Q Q))).

  Lemma p_c0 : Qc c0 c0. Proof. constructor; apply HQ. Qed.
  Lemma p_creal x y : Q x y -> Qc (creal x) (creal y). Proof. constructor; auto; apply HQ. Qed.
  Lemma p_cadd x y x' y' : Qc x y -> Qc x' y' -> Qc (cadd x x') (cadd y y').
  Proof. intros [] []. constructor; apply HQ; auto. Qed.
  Lemma p_csub x y x' y' : Qc x y -> Qc x' y' -> Qc (csub x x') (csub y y').
  Proof. intros [] []. constructor; apply HQ; auto. Qed.
  Lemma p_cmul x y x' y' : Qc x y -> Qck x' y' -> Qc (cmul x x') (cmul y y').
  Proof. intros [] []. constructor; apply HQ; apply HQ; auto. Qed.
  Lemma p_cscale x y s t : Qc x y -> Qk s t -> Qc (cscale x s) (cscale y t).
  Proof. intros [] Hst. constructor; apply HQ; auto. Qed.
  Lemma p_fst x y : Qc x y -> Q (fst x) (fst y). Proof. now intros []. Qed.
  Local Hint Resolve p_c0 p_creal p_cadd p_csub p_cmul p_cscale p_fst : core.
  Local Hint Extern 1 (Q s0 s0) => apply (s_0 HQ) : core.
  Local Hint Extern 1 (Qk shalf shalf) => apply (s_half HQ) : core.
  Local Hint Extern 2 (Q (sadd _ _) (sadd _ _)) => apply (s_add HQ) : core.

  (** ** FFT *)
  Notation Qw e := (fun w w' => Qck (spow w e) (spow w' e)).
  Lemma p_fft_fwd_point w w' b h e l l' : Qw e w w' -> Qcl l l' ->
    Rres Qcl (fft_fwd_point w b h e l) (fft_fwd_point w' b h e l').
  Proof. cbv beta. intros. unfold fft_fwd_point. pgo. Qed.
  Lemma p_fft_inv_point w w' b h e l l' : Qw e w w' -> Qcl l l' ->
    Rres Qcl (fft_inv_point w b h e l) (fft_inv_point w' b h e l').
  Proof. cbv beta. intros. unfold fft_inv_point. pgo. Qed.
  Lemma half_lt n e : e < 2 ^ n / 2 -> 2 * e < 2 ^ n.
  Proof. intros H. pose proof (Nat.mul_div_le (2 ^ n) 2 ltac:(lia)). lia. Qed.
  Lemma seg_lt n e : n / 2 + e < n -> 2 * e < n.
  Proof. intros H. pose proof (Nat.div_mod n 2 ltac:(lia)). pose proof (Nat.mod_upper_bound n 2 ltac:(lia)). lia. Qed.
  Lemma p_fft_fwd n l l' : okn n -> Qcl l l' -> Rres Qcl (ForwardFFTUnordered n l) (ForwardFFTUnordered n l').
  Proof.
    intros Hn Hl. unfold ForwardFFTUnordered. destruct (Nat.eqb_spec n 0) as [E|E]; cbn [negb assert bind]; [constructor|].
    apply Rfor_down_in; auto. intros d x y Hd Hx. unfold fft_fwd_level. apply Rfor_n; auto. clear x y Hx; intros. unfold for_n. apply Rfor_from_in; auto. intros.
    apply p_fft_fwd_point; auto. apply (s_root_neg HQ); [|now apply half_lt].
    apply (s_pow2 HQ) with n; auto; lia.
  Qed.
  Lemma p_fft_inv n l l' : okn n -> Qcl l l' -> Rres Qcl (InverseFFTUnordered n l) (InverseFFTUnordered n l').
  Proof.
    intros Hn Hl. unfold InverseFFTUnordered. destruct (Nat.eqb_spec n 0) as [E|E]; cbn [negb assert bind]; [constructor|].
    apply Rfor_from_in; auto. intros d x y Hd Hx. unfold fft_inv_level. apply Rfor_n; auto. clear x y Hx; intros. unfold for_n. apply Rfor_from_in; auto. intros.
    apply p_fft_inv_point; auto. apply (s_root HQ); [|now apply half_lt].
    apply (s_pow2 HQ) with n; auto; lia.
  Qed.
  Lemma p_slice f g o n l l' : (forall l l', Qcl l l' -> Rres Qcl (f l) (g l')) -> Qcl l l' ->
    Rres Qcl (on_slice f o n l) (on_slice g o n l').
  Proof.
    intros Hf H. unfold on_slice. rewrite (F2_length H). ps; [|constructor].
    ps; [apply Hf, F2_firstn, F2_skipn, H|]. ps. apply Forall2_app; [now apply F2_firstn|].
    apply Forall2_app; auto. now apply F2_skipn.
  Qed.

  (** ** FFTDecomposition, DecompositionSchedule *)
  Lemma p_dec_fwd_point w w' b n h p l l' : (h + p < n -> Qw p w w') -> Qcl l l' ->
    Rres Qcl (dec_fwd_point w b n h p l) (dec_fwd_point w' b n h p l').
  Proof.
    intros Hw Hl. unfold dec_fwd_point. destruct (Nat.ltb_spec (h + p) n) as [E|E]; cbn [assert bind]; [|constructor].
    specialize (Hw E). pgo.
  Qed.
  Lemma p_dec_inv_point w w' b n h p l l' : (h + p < n -> Qw p w w') -> Qcl l l' ->
    Rres Qcl (dec_inv_point w b n h p l) (dec_inv_point w' b n h p l').
  Proof.
    intros Hw Hl. unfold dec_inv_point. destruct (Nat.ltb_spec (h + p) n) as [E|E]; cbn [assert bind]; [|constructor].
    specialize (Hw E). pgo.
  Qed.
  Lemma p_fwd_schedule nd n b p l l' : okn n -> Qcl l l' ->
    Rres Qcl (ForwardDecompositionSchedule nd n b p l) (ForwardDecompositionSchedule nd n b p l').
  Proof.
    intros Hn Hl. unfold ForwardDecompositionSchedule, SegmentedForwardDecompositionRadix2. pgo.
    apply p_dec_fwd_point; auto. intros. apply (s_root_neg HQ); [now apply (s_seg HQ)|now apply seg_lt].
  Qed.
  Lemma p_inv_schedule nd n b p l l' : okn n -> Qcl l l' ->
    Rres Qcl (InverseDecompositionSchedule nd n b p l) (InverseDecompositionSchedule nd n b p l').
  Proof.
    intros Hn Hl. unfold InverseDecompositionSchedule, SegmentedInverseDecompositionRadix2. pgo.
    apply p_dec_inv_point; auto. intros. apply (s_root HQ); [now apply (s_seg HQ)|now apply seg_lt].
  Qed.

  (** ** buffers *)
  Lemma p_cb_readQ b b' c : Rcb b b' -> Rres Qcl (cb_read b c) (cb_read b' c). Proof. apply p_cb_read. Qed.
  Lemma p_cb_readK b b' c : RcbK b b' -> Rres (@Forall2 (cplx A1) (cplx A2) Qck) (cb_read b c) (cb_read b' c). Proof. apply p_cb_read. Qed.
  Lemma p_cb_make n c : Rcb (cb_make n c) (cb_make n c).
  Proof. constructor. apply F2_repeat, F2_repeat. auto. Qed.
  Lemma p_cb_write b b' c l l' : Rcb b b' -> Qcl l l' -> Rres Rcb (cb_write b c l) (cb_write b' c l').
  Proof. intros [? ? ? H] Hl. unfold cb_write. cbn. pgo. constructor. auto. Qed.
  Lemma p_cb_clear b b' : Rcb b b' -> Rcb (cb_clear b) (cb_clear b').
  Proof. intros [? ? ? H]. constructor. cbn. eapply F2_map; [|exact H]. intros. eapply F2_map; eauto. Qed.
  Lemma p_cb_mul s s' a a' b b' : Rcb s s' -> Rcb a a' -> RcbK b b' -> Rres Rcb (cb_multiply_from s a b) (cb_multiply_from s' a' b').
  Proof.
    intros Hs Ha Hb. unfold cb_multiply_from. rewrite (p_same Hs Ha), (p_same Ha Hb). pgo.
    rewrite (p_cb_points Hs). constructor. eapply F2_zipw; [|eapply p_cb_data; eassumption..]. intros. eapply F2_zipw; [|eassumption..]. auto.
  Qed.
  Lemma p_cb_add s s' b b' : Rcb s s' -> Rcb b b' -> Rres Rcb (cb_add_from s b) (cb_add_from s' b').
  Proof.
    intros Hs Hb. unfold cb_add_from. rewrite (p_same Hs Hb). pgo.
    rewrite (p_cb_points Hs). constructor. eapply F2_zipw; [|eapply p_cb_data; eassumption..]. intros. eapply F2_zipw; [|eassumption..]. auto.
  Qed.
  Lemma p_cb_mac s s' a a' b b' : Rcb s s' -> Rcb a a' -> RcbK b b' ->
    Rres Rcb (cb_multiply_accumulate_from s a b) (cb_multiply_accumulate_from s' a' b').
  Proof.
    intros Hs Ha Hb. unfold cb_multiply_accumulate_from. rewrite (p_same Hs Ha), (p_same Ha Hb). pgo.
    rewrite (p_cb_points Hs). constructor. eapply F2_zipw with (P1 := Qcl); [|eapply p_cb_data; eassumption|].
    - intros. eapply F2_zipw; [|eassumption..]. auto.
    - eapply F2_zipw; [|eapply p_cb_data; eassumption..]. intros. eapply F2_zipw; [|eassumption..]. auto.
  Qed.
  Lemma p_num_samples (a : audio A1) (b : audio A2) : Qa a b -> num_samples a = num_samples b.
  Proof. intros [|x y l l' H _]; auto. exact (F2_length H). Qed.
  Lemma p_cb_copy s s' (b : audio A1) (b' : audio A2) : Rcb s s' -> Qa b b' ->
    Rres Rcb (cb_copy_from_audio_block s b) (cb_copy_from_audio_block s' b').
  Proof.
    intros Hs Hb. unfold cb_copy_from_audio_block.
    rewrite (p_cb_channels Hs), (p_cb_points Hs), (F2_length Hb), (p_num_samples Hb).
    ps; [apply Rrefl|]. subst. apply Rfor_n; auto. intros. apply Rfor_n; auto. intros. ps; [pgo|]. ps; [pgo|]. ps; [eapply p_cb_read; eassumption|].
    ps; [pgo|]. now apply p_cb_write.
  Qed.

  (** ** FrequencyDelayLine, stages *)
  Inductive Rfdl : fdl A1 -> fdl A2 -> Prop :=
  | MkRfdl : forall h n d d', Forall2 Rcb d d' ->
      Rfdl {| fdl_blocks := d; fdl_head := h; fdl_num_blocks := n |} {| fdl_blocks := d'; fdl_head := h; fdl_num_blocks := n |}.
  Lemma p_fdl_make c n p : Rfdl (fdl_make c n p) (fdl_make c n p).
  Proof. constructor. apply F2_repeat, p_cb_clear, p_cb_make. Qed.
  Lemma p_fdl_next f f' : Rfdl f f' -> Rres Rfdl (fdl_next f) (fdl_next f').
  Proof.
    intros [h n d d' H]. unfold fdl_next. cbn [fdl_blocks fdl_head fdl_num_blocks]. rewrite (F2_length H).
    ps; [apply Rrefl|]. subst. pgo. constructor; auto.
  Qed.
  Lemma p_fdl_get f f' i : Rfdl f f' -> Rres Rcb (fdl_get f i) (fdl_get f' i).
  Proof. intros [h n d d' H]. unfold fdl_get, fdl_index. cbn [fdl_blocks fdl_head fdl_num_blocks]. pgo. Qed.
  Lemma p_fdl_put f f' i b b' : Rfdl f f' -> Rcb b b' -> Rres Rfdl (fdl_put f i b) (fdl_put f' i b').
  Proof.
    intros [h n d d' H] Hb. unfold fdl_put, fdl_index. cbn [fdl_blocks fdl_head fdl_num_blocks]. pgo. constructor; auto.
  Qed.
  Lemma p_fdl_clear f f' : Rfdl f f' -> Rfdl (fdl_clear f) (fdl_clear f').
  Proof. intros [h n d d' H]. constructor. cbn. eapply F2_map; [|exact H]. apply p_cb_clear. Qed.

  Inductive Rst : stages A1 -> stages A2 -> Prop :=
  | MkRst : forall h d d', Forall2 Rcb d d' -> Rst {| st_head := h; st_bufs := d |} {| st_head := h; st_bufs := d' |}.
  Lemma p_st_make n : Rst (st_make n) (st_make n).
  Proof. constructor. eapply F2_map; [apply p_cb_clear|]. apply F2_repeat, p_cb_make. Qed.
  Lemma p_st_get s s' i : Rst s s' -> Rres Rcb (st_get s i) (st_get s' i).
  Proof. intros [h d d' H]. unfold st_get, st_index. cbn [st_bufs st_head]. ps; [apply Rrefl|]. subst. pgo. Qed.
  Lemma p_st_put s s' i b b' : Rst s s' -> Rcb b b' -> Rres Rst (st_put s i b) (st_put s' i b').
  Proof. intros [h d d' H] Hb. unfold st_put, st_index. cbn [st_bufs st_head]. ps; [apply Rrefl|]. subst. pgo. constructor; auto. Qed.
  Lemma p_st_promote s s' : Rst s s' -> Rst (st_promote s) (st_promote s').
  Proof. intros [h d d' H]. constructor. auto. Qed.
  Lemma p_st_clear s s' : Rst s s' -> Rst (st_clear s) (st_clear s').
  Proof. intros [h d d' H]. constructor. cbn. eapply F2_map; [|exact H]. apply p_cb_clear. Qed.

  Local Hint Resolve p_cb_make p_cb_readQ p_cb_readK p_cb_write p_cb_clear p_fdl_make p_fdl_next p_fdl_get p_fdl_put p_fdl_clear
    p_st_make p_st_get p_st_put p_st_promote p_st_clear p_fft_fwd p_fft_inv p_fwd_schedule p_inv_schedule : core.

  (** ** TimeDistributedUPC *)
  Inductive Rtd : tdupc A1 -> tdupc A2 -> Prop :=
  | MkRtd : forall a b c d e f g h F F' D D' S S' T T', okn b -> Forall2 RcbK F F' -> Rfdl D D' -> Rst S S' -> Ql T T' ->
      Rtd {| t_partition := a; t_points := b; t_num_phases := c; t_phase := d; t_nd := e; t_num_partitions := f;
             t_offset := g; t_filters := F; t_filter_channel := h; t_fdl := D; t_stages := S; t_tail := T |}
          {| t_partition := a; t_points := b; t_num_phases := c; t_phase := d; t_nd := e; t_num_partitions := f;
             t_offset := g; t_filters := F'; t_filter_channel := h; t_fdl := D'; t_stages := S'; t_tail := T' |}.
  Lemma p_td_with t t' p f f' s s' l l' : Rtd t t' -> Rfdl f f' -> Rst s s' -> Ql l l' ->
    Rtd (td_with t p f s l) (td_with t' p f' s' l').
  Proof. intros [] ? ? ?. constructor; auto. Qed.
  Lemma p_td_reset t t' : Rtd t t' -> Rtd (td_reset t) (td_reset t').
  Proof. intros []. constructor; auto. cbn. eapply F2_map; [|eassumption]. auto. Qed.
  Lemma p_td_make m p F F' c o nd : okn (2 * (m * p)) -> Forall2 RcbK F F' -> Rtd (td_make m p F c o nd) (td_make m p F' c o nd).
  Proof.
    intros Ho H. unfold td_make. rewrite (F2_length H). apply p_td_reset. constructor; auto. apply F2_repeat; auto.
  Qed.
  Lemma p_td_begin t t' : Rtd t t' -> Rres Rtd (td_begin_partition t) (td_begin_partition t').
  Proof.
    intros H. unfold td_begin_partition. destruct H. cbn [t_stages t_fdl t_phase t_tail]. pgo.
    apply p_td_with; auto. constructor; auto.
  Qed.
  Lemma p_td_fill p (l : list (sample A1)) l' d d' : Ql l l' -> Qcl d d' -> Rres Qcl (td_fill p l d) (td_fill p l' d').
  Proof. intros H Hd. unfold td_fill. rewrite (F2_length H). pgo. Qed.
  Lemma p_td_transfer o n s s' : Rpair Qcl Qcl s s' -> Rres (Rpair Qcl Qcl) (td_transfer o n s) (td_transfer o n s').
  Proof. intros H. unfold td_transfer. pgo. Qed.
  Lemma p_td_multiply t t' f f' o n d d' : Rtd t t' -> Rfdl f f' -> Qcl d d' ->
    Rres Qcl (td_multiply t f o n d) (td_multiply t' f' o n d').
  Proof. intros H Hf Hd. unfold td_multiply. destruct H. cbn [t_num_partitions t_filters t_filter_channel]. pgo. Qed.
  Lemma p_td_sub t t' f f' d d' : Rtd t t' -> Rfdl f f' -> Qcl d d' ->
    Rres (Rpair Rfdl Qcl) (td_sub_transform t f d) (td_sub_transform t' f' d').
  Proof.
    intros H Hf Hd. unfold td_sub_transform, td_sub_transform_with, td_active.
    assert (E : t_nd t = t_nd t' /\ t_points t = t_points t' /\ t_offset t = t_offset t' /\ t_phase t = t_phase t' /\ okn (t_points t')) by now destruct H.
    destruct E as (-> & -> & -> & -> & Ho). assert (Hs : okn (t_points t' / 2 ^ t_nd t')) by now apply (s_seg HQ). ps; [|pgo]. ps; [instantiate (1 := Rpair Rfdl Qcl)|].
    - ps; [|pgo]. ps; [apply p_slice; auto|]. ps; [eauto|]. ps; [eauto|]. ps; [apply p_td_transfer; constructor; eauto|]. ps. ps; [eauto|]. ps; [eauto|]. pgo.
    - ps. ps; [apply p_td_multiply; auto|]. ps; [instantiate (1 := Qcl)|pgo]. ps; [apply p_slice; auto|pgo].
  Qed.
  Lemma p_td_output t t' c c' l l' b b' : Rtd t t' -> Qcl c c' -> Ql l l' -> Ql b b' ->
    Rres (Rpair Ql Ql) (td_output t c l b) (td_output t' c' l' b').
  Proof.
    intros H Hc Hl Hb. unfold td_output. rewrite (F2_length Hb). destruct H. cbn [t_phase t_partition]. pgo.
  Qed.
  Lemma p_td_process t t' b b' : Rtd t t' -> Ql b b' -> Rres (Rpair Rtd Ql) (td_process t b) (td_process t' b').
  Proof.
    intros H Hb. unfold td_process. ps; [instantiate (1 := Rtd)|].
    { destruct H. cbn [t_phase]. ps; [apply p_td_begin|]; constructor; auto; constructor; auto. }
    clear t t' H. match goal with H : Rtd x y |- _ => rename H into Ht end. rename x into t, y into t'.
    assert (E : t_nd t = t_nd t' /\ t_points t = t_points t' /\ t_num_phases t = t_num_phases t' /\ t_phase t = t_phase t' /\ okn (t_points t')) by now destruct Ht.
    destruct E as (-> & -> & -> & -> & Hok).
    assert (HS : Rst (t_stages t) (t_stages t')) by now destruct Ht.
    assert (HD : Rfdl (t_fdl t) (t_fdl t')) by now destruct Ht.
    assert (HT : Ql (t_tail t) (t_tail t')) by now destruct Ht.
    ps; [eauto|]. ps; [eauto|]. ps; [apply p_td_fill; eauto|]. ps; [eauto|]. ps; [eauto|]. ps; [eauto|].
    ps; [eauto|]. ps; [eauto|]. ps; [apply p_td_sub; eauto|]. ps. ps; [eauto|]. ps; [eauto|].
    ps; [eauto|]. ps; [eauto|]. ps; [eauto|]. ps; [eauto|]. ps; [eauto|].
    ps; [apply p_td_output; eauto|]. ps. ps; [apply Rrefl|]. subst. ps. constructor; auto. apply p_td_with; auto.
  Qed.

  (** ** blocks *)
  Lemma p_chan_sub o n l l' : Ql l l' -> Rres Ql (chan_sub o n l) (chan_sub o n l').
  Proof. intros H. unfold chan_sub. rewrite (F2_length H). ps; [|constructor]. ps. now apply F2_firstn, F2_skipn. Qed.
  Lemma p_blk_sub (b : audio A1) (b' : audio A2) o n : Qa b b' -> Rres Qa (blk_sub b o n) (blk_sub b' o n).
  Proof.
    intros H. unfold blk_sub. rewrite (p_num_samples H). ps; [apply Rrefl|]. subst. eapply RmapM; [|exact H].
    intros. now apply p_chan_sub.
  Qed.
  Lemma p_view_read v (b : audio A1) (b' : audio A2) : Qa b b' -> Rres Qa (view_read v b) (view_read v b').
  Proof. intros H. eapply RmapM; [|exact H]. intros. now apply p_chan_sub. Qed.
  Definition Qf (f : sample A1 -> sample A1 -> sample A1) (g : sample A2 -> sample A2 -> sample A2) : Prop :=
    forall x y x' y', Q x y -> Q x' y' -> Q (f x x') (g y y').
  Lemma p_copy : Qf f_copy f_copy. Proof. intros x y x' y' _ H. exact H. Qed.
  Lemma p_add : Qf sadd sadd. Proof. exact (s_add HQ). Qed.
  Lemma p_chan_apply f g o l l' d d' : Qf f g -> Ql l l' -> Ql d d' -> Rres Ql (chan_apply f o l d) (chan_apply g o l' d').
  Proof.
    intros Hf Hl Hd. unfold chan_apply. rewrite (F2_length Hl), (F2_length Hd). ps; [|constructor]. ps.
    apply Forall2_app; [now apply F2_firstn|]. apply Forall2_app; [|now apply F2_skipn].
    eapply F2_zipw; [exact Hf| |exact Hl]. now apply F2_firstn, F2_skipn.
  Qed.
  Lemma p_blk_apply f g v (b s : audio A1) (b' s' : audio A2) : Qf f g -> Qa b b' -> Qa s s' ->
    Rres Qa (blk_apply f v b s) (blk_apply g v b' s').
  Proof.
    intros Hf Hb. revert s s'. induction Hb as [|c c' b b' Hc Hb IH]; intros s s' Hs; cbn [blk_apply].
    - constructor. constructor.
    - destruct Hs as [|x x' s s' Hx Hs]; [constructor; now constructor|].
      ps; [apply p_chan_apply; auto; now apply F2_firstn|]. ps; [now apply IH|]. ps. now constructor.
  Qed.
  Lemma p_blk_copy v (b s : audio A1) (b' s' : audio A2) : Qa b b' -> Qa s s' ->
    Rres Qa (blk_copy_from v b s) (blk_copy_from v b' s').
  Proof. apply p_blk_apply, p_copy. Qed.
  Lemma p_blk_clear v (b : audio A1) (b' : audio A2) : Qa b b' -> Rres Qa (blk_clear v b) (blk_clear v b').
  Proof. intros H. apply p_blk_copy; auto. eapply F2_map; [|exact H]. intros. now apply F2_repeat, HQ. Qed.
  Lemma p_whole (b : audio A1) (b' : audio A2) : Qa b b' -> whole b = whole b'.
  Proof. intros H. unfold whole. now rewrite (p_num_samples H). Qed.
  Lemma p_zeros c n : Qa (zeros c n) (zeros c n).
  Proof. apply F2_repeat, F2_repeat, HQ. Qed.
  Lemma p_audio_clear (b : audio A1) (b' : audio A2) : Qa b b' -> Qa (audio_clear b) (audio_clear b').
  Proof. intros H. eapply F2_map; [|exact H]. intros. eapply F2_map; [|eassumption]. intros. apply HQ. Qed.
  Local Hint Resolve p_blk_sub p_view_read p_blk_copy p_blk_clear p_zeros p_audio_clear : core.

  (** ** SplitBlock *)
  Lemma p_sb_apply f g s (b d : audio A1) (b' d' : audio A2) : Qf f g -> Qa b b' -> Qa d d' ->
    Rres Qa (sb_apply f s b d) (sb_apply g s b' d').
  Proof.
    intros Hf Hb Hd. unfold sb_apply. rewrite (p_num_samples Hd). ps; [instantiate (1 := Qa); ps|].
    - ps; [eauto|]. now apply p_blk_apply.
    - now ps.
    - ps; [|now ps]. ps; [eauto|]. now apply p_blk_apply.
  Qed.
  Lemma p_sb_apply_to f g s (b d : audio A1) (b' d' : audio A2) : Qf f g -> Qa b b' -> Qa d d' ->
    Rres Qa (sb_apply_to f s b d) (sb_apply_to g s b' d').
  Proof.
    intros Hf Hb Hd. unfold sb_apply_to. rewrite (p_num_samples Hd), (p_whole Hd). ps; [eauto|].
    ps; [apply p_blk_apply; eauto|]. ps; [|now ps]. ps; [apply Rrefl|]. subst. ps; [eauto|]. now apply p_blk_apply.
  Qed.
  Lemma p_sb_clear s (b : audio A1) (b' : audio A2) : Qa b b' -> Rres Qa (sb_clear s b) (sb_clear s b').
  Proof.
    intros H. unfold sb_clear. ps; [instantiate (1 := Qa); ps; [eauto|now ps]|]. ps; [eauto|now ps].
  Qed.

  (** ** UniformPartitionedConvolver *)
  Lemma p_flat l l' : Qcl l l' -> Ql (flat l) (flat l').
  Proof. induction 1 as [|x y l l' [] _ IH]; cbn; [constructor|]. constructor; auto. Qed.
  Lemma p_pairs : forall l l', Ql l l' -> Qcl (pairs l) (pairs l').
  Proof.
    fix IH 3. intros l l' H. destruct H as [|x y l l' Hx [|x' y' l2 l2' Hx' H2]]; cbn; [constructor|constructor|].
    constructor; [now constructor|]. now apply IH.
  Qed.
  Lemma p_cb_block b b' : Rcb b b' -> Qa (cb_block b) (cb_block b').
  Proof. intros [n d d' H]. unfold cb_block. cbn [cb_data]. eapply F2_map; [|exact H]. apply p_flat. Qed.
  Lemma p_cb_set b b' (l : audio A1) (l' : audio A2) : Rcb b b' -> Qa l l' -> Rcb (cb_set_block b l) (cb_set_block b' l').
  Proof. intros [n d d' H] Hl. unfold cb_set_block. cbn [cb_points]. constructor. eapply F2_map; [|exact Hl]. apply p_pairs. Qed.
  Lemma p_transform f g (b : audio A1) (b' : audio A2) c : (forall l l', Ql l l' -> Ql (f l) (g l')) -> Qa b b' ->
    Rres Qa (blk_transform f b c) (blk_transform g b' c).
  Proof. intros Hf Hb. unfold blk_transform. ps; [apply Rget; eassumption|]. apply Rset; auto. Qed.

  Variables (R1 : rfft A1) (R2 : rfft A2).
  Record rfft_respected : Prop := {
    r_fwd : forall k l l', Ql l l' -> Ql (rfft_fwd R1 k l) (rfft_fwd R2 k l');
    r_inv : forall k l l', Ql l l' -> Ql (rfft_inv R1 k l) (rfft_inv R2 k l')
  }.
  Hypothesis HR : rfft_respected.

  Lemma p_upc_filter n s o p (ir : audio A1) (ir' : audio A2) i : Qa ir ir' ->
    Rres Rcb (upc_filter R1 n s o p ir i) (upc_filter R2 n s o p ir' i).
  Proof.
    intros H. unfold upc_filter. rewrite (p_num_samples H), (F2_length H). ps; [apply Rrefl|]. subst. ps; [eauto|].
    ps; [instantiate (1 := Qa); apply Rfor_n; [|now apply p_cb_block; auto]|ps; apply p_cb_set; auto].
    intros c b b' Hb. ps; [apply Rrefl|]. subst. ps; [apply Rget; eassumption|]. ps; [apply Rget; eassumption|].
    match goal with H1 : Ql ?z _ |- context [length ?z] => rewrite (F2_length H1) end.
    ps; [apply p_chan_apply; [apply p_copy|now apply F2_firstn|assumption]|]. ps; [apply Rset; eassumption|].
    apply p_transform; auto. apply HR.
  Qed.
  Lemma p_multi_filter p (ir : audio A1) (ir' : audio A2) i : okn (2 * p) -> Qa ir ir' ->
    Rres Rcb (multi_filter p ir i) (multi_filter p ir' i).
  Proof.
    intros Ho H. unfold multi_filter. rewrite (p_num_samples H), (F2_length H). ps; [apply Rrefl|]. subst. ps; [eauto|].
    ps; [apply p_cb_copy; [apply p_cb_clear, p_cb_make|eassumption]|]. apply Rfor_n; auto. intros. pgo.
  Qed.
End Param.

Definition rect {A : arith} (a : audio A) : Prop := 0 < length a /\ exists m, forall c, In c a -> length c = m.
Lemma rect_sub {A : arith} (a b : audio A) o n : rect a -> blk_sub a o n = Ok b -> rect b.
Proof.
  unfold blk_sub. intros [Ha _]. destruct (o <? num_samples a); cbn [assert bind]; [|discriminate]. clear - Ha.
  assert (G : forall (a b : audio A), mapM (chan_sub o n) a = Ok b -> length b = length a /\ forall c, In c b -> length c = n).
  { clear. induction a as [|x a IH]; cbn [mapM]; intros b E; [injection E as <-; split; auto; intros c []|].
    unfold chan_sub in E at 1. destruct (Nat.leb_spec (o + n) (length x)); cbn [bind] in E; [|discriminate].
    destruct (mapM (chan_sub o n) a) as [r| |] eqn:Er; cbn [bind] in E; try discriminate. injection E as <-.
    destruct (IH _ eq_refl) as [H1 H2]. split; [cbn; now rewrite H1|]. intros c [<-|Hc]; auto.
    rewrite firstn_length, skipn_length. lia. }
  intros E. apply G in E as [H1 H2]. split; [lia|eauto].
Qed.

Section Stack.
  Context {A1 A2 : arith}.
  (** [Q] for signals, [Qk] for constants, [Qi] for the response *)
  Variables Q Qk Qi : sample A1 -> sample A2 -> Prop.
  Variable okn : nat -> Prop.
  Hypothesis HQ : respects Q Qk okn.
  Variables (R1 : rfft A1) (R2 : rfft A2).
  Hypothesis HR : rfft_respected Q R1 R2.
  (** the transformed response is constant; conditions on the partition sizes, the number of channels, the response *)
  Variables okp oku okc : nat -> Prop.
  Hypothesis okp_okn : forall p, okp p -> okn (2 * p).
  Variable okr : audio A2 -> Prop.
  Hypothesis okr_sub : forall a o n b, okr a -> blk_sub a o n = Ok b -> okr b.
  Hypothesis HFu : forall n p (ir : audio A1) (ir' : audio A2) i, 0 < p -> okc n -> oku p -> okr ir' -> Forall2 (Forall2 Qi) ir ir' ->
    Rres (RcbG Qk) (upc_filter R1 n (next_pow2 (p * 2)) (Nat.log2 (next_pow2 (p * 2))) p ir i)
                   (upc_filter R2 n (next_pow2 (p * 2)) (Nat.log2 (next_pow2 (p * 2))) p ir' i).
  Hypothesis HFm : forall p (ir : audio A1) (ir' : audio A2) i, okp p -> okr ir' -> Forall2 (Forall2 Qi) ir ir' ->
    Rres (RcbG Qk) (multi_filter p ir i) (multi_filter p ir' i).
  Notation Ql := (Forall2 Q).
  Notation Qa := (Forall2 (Forall2 Q)).
  Notation Qak := (Forall2 (Forall2 Qi)).
  Notation Qcl := (@Forall2 (cplx A1) (cplx A2) (Rpair Q Q)).
  Notation Rcb := (RcbG Q).
  Notation RcbK := (RcbG Qk).
  Notation Rfdl := (Rfdl Q).
  Notation Rst := (Rst Q).
  Notation Rtd := (Rtd Q Qk okn).
  Local Hint Resolve p_cb_make p_cb_readQ p_cb_readK p_cb_write p_cb_clear p_fdl_make p_fdl_next p_fdl_get p_fdl_put p_fdl_clear
    p_st_make p_st_get p_st_put p_st_promote p_st_clear p_fft_fwd p_fft_inv p_fwd_schedule p_inv_schedule
    p_blk_sub p_view_read p_copy p_zeros p_audio_clear : core.

  Ltac q1 := first [solve [eauto] | eapply p_blk_sub; eassumption | eapply p_view_read; eassumption].

  Inductive Rupc : upc A1 -> upc A2 -> Prop :=
  | MkRupc : forall a b c d e h D D' V V' I I' F F' S S', Rfdl D D' -> Rcb V V' -> Rcb I I' -> Forall2 RcbK F F' -> Qa S S' ->
      Rupc {| u_fft_size := a; u_order := b; u_discard := c; u_collected := d; u_partition := e; u_fdl := D; u_conv := V;
              u_ifft := I; u_filters := F; u_saved := S; u_head := h |}
           {| u_fft_size := a; u_order := b; u_discard := c; u_collected := d; u_partition := e; u_fdl := D'; u_conv := V';
              u_ifft := I'; u_filters := F'; u_saved := S'; u_head := h |}.
  Lemma p_upc_reset u u' : Rupc u u' -> Rupc (upc_reset u) (upc_reset u').
  Proof. intros []. constructor; eauto. Qed.
  Lemma p_upc_make n p (ir : audio A1) (ir' : audio A2) : okc n -> oku p -> okr ir' -> Qak ir ir' -> Rres Rupc (upc_make R1 n p ir) (upc_make R2 n p ir').
  Proof.
    intros Hn Hok Hr H. unfold upc_make. rewrite (p_num_samples H). destruct (Nat.ltb_spec 0 p); [cbn [assert bind]|constructor]. ps; [apply Rrefl|]. subst.
    ps; [apply RmapM_same; intros; apply HFu; assumption|]. ps. eapply p_upc_reset. constructor; eauto.
  Qed.
  Lemma p_upc_begin u u' : Rupc u u' -> Rres Rupc (upc_begin_partition u) (upc_begin_partition u').
  Proof.
    intros [a b c d e h D D' V V' I I' F F' S S' HD HV HI HF HS]. unfold upc_begin_partition.
    cbn [u_fft_size u_order u_discard u_collected u_partition u_fdl u_conv u_ifft u_filters u_saved u_head].
    rewrite (F2_length HF), (p_num_samples HS). ps; [q1|]. ps; [instantiate (1 := Rcb); apply Rfor_from; eauto|].
    - intros. ps; [q1|]. ps; [apply Rget; eassumption|]. eapply (p_cb_mac HQ); eassumption.
    - ps; [apply Rrefl|]. subst. dp. ps. constructor; eauto.
  Qed.
  Definition Rloop {X Y} (P : X -> Y -> Prop) : X * audio A1 * nat -> Y * audio A2 * nat -> Prop := Rpair (Rpair P Qa) eq.
  Lemma p_upc_round s s' : Rloop Rupc s s' -> Rres (Rloop Rupc) (upc_round R1 s) (upc_round R2 s').
  Proof.
    intros [? ? p ? [u u' out out' Hu Ho] <-]. unfold upc_round. rewrite (p_num_samples Ho), (F2_length Ho), (p_whole Ho).
    ps; [instantiate (1 := Rupc)|].
    { assert (E : u_collected u = u_collected u') by now destruct Hu. rewrite E. ps; [eapply p_upc_begin; eassumption|now ps]. }
    clear u u' Hu. match goal with H : Rupc _ _ |- _ => destruct H as [a b c d e h D D' V V' I I' F F' S S' HD HV HI HF HS] end.
    cbn [u_fft_size u_order u_discard u_collected u_partition u_fdl u_conv u_ifft u_filters u_saved u_head].
    rewrite (p_num_samples HS). ps; [apply Rrefl|]. subst. ps; [q1|]. ps; [q1|]. ps; [apply Rrefl|]. subst.
    dp. ps; [apply p_sb_apply; [apply p_copy|eassumption..]|].
    match goal with H : Qa ?x ?y |- context [num_samples ?x] => rewrite (p_num_samples H) end.
    ps; [apply Rrefl|]. subst. dp. ps; [apply p_sb_apply_to; [apply p_copy|eassumption|eapply p_cb_block, p_cb_clear; eassumption]|].
    ps; [apply Rfor_n; [intros; eapply p_transform; [apply HR|eassumption]|eassumption]|].
    ps; [eapply p_fdl_put; [eassumption|eapply p_cb_set; [eapply (p_cb_clear HQ); eassumption|eassumption]]|].
    ps; [apply Rget; eassumption|]. ps; [eapply (p_cb_mul HQ); [eassumption|eapply p_cb_set; [eapply (p_cb_clear HQ); eassumption|eassumption]|eassumption]|].
    ps; [eapply (p_cb_add HQ); eassumption|].
    ps; [apply Rfor_n; [intros; eapply p_transform; [apply HR|eassumption]|eapply p_cb_block; eassumption]|].
    ps; [apply Rrefl|]. subst. ps; [eapply p_blk_sub; eassumption|]. ps; [eapply p_blk_copy; eassumption|]. ps; [apply Rrefl|]. subst.
    ps. constructor; eauto. constructor; eauto. constructor; eauto. eapply p_cb_set; eassumption.
  Qed.
  Lemma p_loop_cond {X Y} (P : X -> Y -> Prop) : forall x y, Rloop P x y ->
    (snd x <? num_samples (snd (fst x))) = (snd y <? num_samples (snd (fst y))).
  Proof. intros _ _ [? ? ? ? [? ? ? ? _ H] ->]. cbn [fst snd]. now rewrite (p_num_samples H). Qed.
  Lemma p_upc_process u u' (b : audio A1) (b' : audio A2) : Rupc u u' -> Qa b b' ->
    Rres (Rpair Rupc Qa) (upc_process R1 u b) (upc_process R2 u' b').
  Proof.
    intros Hu Hb. unfold upc_process. rewrite (p_num_samples Hb).
    ps; [eapply Rwhile with (P := Rloop Rupc); [apply p_loop_cond|apply p_upc_round|now do 2 constructor]|].
    match goal with H : Rloop _ _ _ |- _ => destruct H as [? ? ? ? [? ? ? ? ? ?] ?] end. ps. now constructor.
  Qed.

  (** ** TimeDistributedUPCMulti *)
  Inductive Rmulti : multi A1 -> multi A2 -> Prop :=
  | MkRmulti : forall t t' f f', Forall2 Rtd t t' -> Forall2 RcbK f f' ->
      Rmulti {| m_tdupcs := t; m_filters := f |} {| m_tdupcs := t'; m_filters := f' |}.
  Lemma p_multi_reset m m' : Rmulti m m' -> Rmulti (multi_reset m) (multi_reset m').
  Proof. intros []. constructor; eauto. cbn. eapply F2_map; [|eassumption]. eapply (p_td_reset HQ). Qed.
  Lemma p_multi_group m p n F F' o c : okn (2 * (m * p)) -> Forall2 RcbK F F' -> Rres (Forall2 Rtd) (multi_group m p n F o c) (multi_group m p n F' o c).
  Proof.
    intros Hok H. unfold multi_group. ps; [apply Rrefl|]. subst. apply RmapM_same. intros. pgo. eapply (p_td_make HQ); eassumption.
  Qed.
  Lemma p_multi_groups m p n F F' : okn (2 * (m * p)) -> Forall2 RcbK F F' -> forall l o,
    Rres (Forall2 Rtd) (multi_groups m p n F o l) (multi_groups m p n F' o l).
  Proof.
    intros Hok H. induction l as [|a l IH]; intros o; cbn [multi_groups]; [ps; constructor|].
    ps; [eapply p_multi_group; eassumption|]. ps; [apply IH|]. ps. now apply Forall2_app.
  Qed.
  Lemma p_multi_make n m p (ir : audio A1) (ir' : audio A2) : okp (p * m) -> okr ir' -> Qak ir ir' -> Rres Rmulti (multi_make n m p ir) (multi_make n m p ir').
  Proof.
    intros Hok Hr H. unfold multi_make. rewrite (p_num_samples H), (F2_length H). ps; [apply Rrefl|]. subst.
    ps; [apply RmapM_same; intros; apply HFm; assumption|]. ps; [apply Rrefl|]. subst.
    ps; [eapply p_multi_groups; [rewrite (Nat.mul_comm m p); now apply okp_okn|eassumption]|]. ps. now constructor.
  Qed.
  Lemma p_multi_process m m' (b : audio A1) (b' : audio A2) : Rmulti m m' -> Qa b b' ->
    Rres (Rpair Rmulti Qa) (multi_process m b) (multi_process m' b').
  Proof.
    intros [t t' f f' Ht Hf] Hb. unfold multi_process. cbn [m_tdupcs m_filters]. rewrite (F2_length Hb).
    ps; [instantiate (1 := Rpair (Forall2 Rtd) Qa); apply Rfor_n; [|now constructor]|].
    - intros. ps. ps; [apply Rget; eassumption|]. ps; [apply Rget; eassumption|]. ps; [eapply (p_td_process HQ); eassumption|].
      ps. ps; [apply Rset; eassumption|]. ps; [apply Rset; eassumption|]. ps. now constructor.
    - ps. ps. constructor; eauto. now constructor.
  Qed.

  (** ** TimeDistributedNUPC *)
  Inductive Rnupc : nupc A1 -> nupc A2 -> Prop :=
  | MkRnupc : forall u u' t t' b c s s' d p p' r r' h, Rupc u u' -> Forall2 Rmulti t t' -> Qa s s' -> Qa p p' -> Qa r r' ->
      Rnupc {| n_upc := u; n_tdupcs := t; n_block := b; n_collected := c; n_saved := s; n_delays := d; n_proc := p; n_ring := r; n_head := h |}
            {| n_upc := u'; n_tdupcs := t'; n_block := b; n_collected := c; n_saved := s'; n_delays := d; n_proc := p'; n_ring := r'; n_head := h |}.
  Lemma p_nupc_reset n n' : Rnupc n n' -> Rnupc (nupc_reset n) (nupc_reset n').
  Proof.
    intros []. constructor; try (eapply (p_audio_clear HQ); eassumption).
    - eapply p_upc_reset; eassumption.
    - cbn. eapply F2_map; [|eassumption]. eapply p_multi_reset.
  Qed.
  Definition Qr (b : audio A1) (b' : audio A2) : Prop := Qak b b' /\ okr b'.
  Lemma p_sub_rect (a : audio A1) (a' : audio A2) o n : okr a' -> Qak a a' ->
    Rres Qr (blk_sub a o n) (blk_sub a' o n).
  Proof.
    intros Hr H. pose proof (p_blk_sub o n H) as G. destruct (blk_sub a' o n) as [b'| |] eqn:E; inversion G; subst; constructor.
    split; auto. eapply okr_sub; eassumption.
  Qed.
  Definition lay_ok (m : nat) (a : layout) : Prop := okp (Z.to_nat (pl_size a) * m).
  Lemma p_nupc_subs n m (ir : audio A1) (ir' : audio A2) : okr ir' -> Qak ir ir' -> forall l o, Forall (lay_ok m) l ->
    Rres (Rpair (Forall2 Rmulti) eq) (nupc_subs n m ir o l) (nupc_subs n m ir' o l).
  Proof.
    intros Hr H. induction l as [|a l IH]; intros o Hl; cbn [nupc_subs]; [ps; now constructor|].
    inversion Hl as [|? ? Ha Hl']; subst.
    rewrite (p_num_samples H). ps; [apply Rrefl|]. subst. unfold nat_of at 1 2. destruct (pl_size a <? 0)%Z; [constructor|]. cbn [bind].
    ps; [apply Rrefl|]. subst.
    ps; [eapply p_sub_rect; eassumption|]. match goal with H : Qr _ _ |- _ => destruct H end. ps; [eapply p_multi_make; eassumption|]. ps; [apply Rrefl|]. subst. ps; [apply IH; assumption|]. ps. subst. ps.
    constructor; eauto.
  Qed.
  Definition sizes_ok (m len : nat) : Prop := oku m /\
    forall l, GetPartitionScheme kGarciaResults (Z.of_nat m) (Z.of_nat len) = Ok l -> Forall (lay_ok m) (tl l).
  Lemma p_nupc_make (ir : audio A1) (ir' : audio A2) n m : okc n -> sizes_ok m (num_samples ir') -> okr ir' -> Qak ir ir' -> Rres Rnupc (nupc_make R1 ir n m) (nupc_make R2 ir' n m).
  Proof.
    intros Hn [Hm Hl] Hr H. unfold nupc_make. rewrite (p_num_samples H). ps; [apply Rrefl|]. subst.
    destruct (GetPartitionScheme kGarciaResults (Z.of_nat m) (Z.of_nat (num_samples ir'))) as [[|a l]| |] eqn:El; cbn [bind]; try constructor.
    specialize (Hl _ eq_refl). cbn [tl] in Hl. ps; [apply Rrefl|]. subst. ps; [eapply p_sub_rect; eassumption|]. match goal with H : Qr _ _ |- _ => destruct H end. ps; [eapply p_upc_make; eassumption|].
    ps; [eapply p_nupc_subs; eassumption|]. ps. subst. ps. eapply p_nupc_reset.
    match goal with H : Forall2 Rmulti _ _ |- _ => destruct H end; constructor; eauto; eapply (p_zeros HQ).
  Qed.
  Lemma p_run_subs h (sv : audio A1) (sv' : audio A2) : Qa sv sv' -> forall ms ms', Forall2 Rmulti ms ms' ->
    forall ds (p r : audio A1) (p' r' : audio A2), Qa p p' -> Qa r r' ->
    Rres (Rpair (Rpair (Forall2 Rmulti) Qa) Qa) (nupc_run_subs ms ds sv p r h) (nupc_run_subs ms' ds sv' p' r' h).
  Proof.
    intros Hs. induction 1 as [|m m' ms ms' Hm Hms IH]; intros ds p r p' r' Hp Hr; cbn [nupc_run_subs].
    - ps. constructor; eauto. constructor; eauto.
    - destruct ds as [|d ds]; [constructor|]. rewrite (p_whole Hp), (p_num_samples Hr).
      ps; [eapply p_blk_copy; eassumption|]. ps; [eapply p_multi_process; eassumption|]. ps.
      ps; [apply Rrefl|]. subst. dp. ps; [apply p_sb_apply; [apply (p_add HQ)|eassumption..]|].
      ps; [apply IH; eassumption|]. match goal with H : Rpair _ _ _ _ |- _ => destruct H as [? ? ? ? [] ?] end.
      ps. constructor; eauto. constructor; eauto.
  Qed.
  Lemma p_nupc_round s s' : Rloop Rnupc s s' -> Rres (Rloop Rnupc) (nupc_round R1 s) (nupc_round R2 s').
  Proof.
    intros [? ? p ? [n n' out out' Hn Ho] <-]. unfold nupc_round. rewrite (p_num_samples Ho), (p_whole Ho).
    destruct Hn as [u u' t t' b c s0 s0' d q q' r r' h Hu Ht Hs Hp Hr].
    cbn [n_upc n_tdupcs n_block n_collected n_saved n_delays n_proc n_ring n_head].
    rewrite (F2_length Ht), (p_whole Hs), (p_num_samples Hs).
    ps; [apply Rrefl|]. subst. ps; [apply Rrefl|]. subst. ps; [eapply p_view_read; eassumption|]. ps; [apply Rrefl|]. subst.
    ps; [instantiate (1 := Rpair (Rpair (Rpair (Rpair (Forall2 Rmulti) Qa) Qa) Qa) eq); ps|].
    - ps; [apply Rrefl|]. subst. ps; [eapply p_blk_copy; eassumption|]. ps; [|ps; repeat constructor; eauto].
      ps; [eapply p_run_subs; eassumption|]. match goal with H : Rpair _ _ _ _ |- _ => destruct H as [? ? ? ? [] ?] end.
      match goal with H : Qa ?x ?y |- context [num_samples ?x] => rewrite (p_num_samples H) end.
      ps; [apply Rrefl|]. subst. dp. ps. repeat constructor; eauto.
    - ps. repeat constructor; eauto.
    - match goal with H : Rpair _ _ _ _ |- _ => destruct H as [? ? ? ? [? ? ? ? [? ? ? ? [] ?] ?] ?] end. subst.
      ps; [eapply p_upc_process; eassumption|]. ps.
      ps; [instantiate (1 := Rpair Qa Qa); ps|].
      + match goal with H : Qa ?x ?y |- context [num_samples ?x] => rewrite (p_num_samples H) end.
        ps; [apply Rrefl|]. subst. dp. ps; [apply Rrefl|]. subst.
        ps; [apply p_sb_apply_to; [apply (p_add HQ)|eassumption..]|]. ps; [eapply (p_sb_clear HQ); eassumption|]. ps. now constructor.
      + ps. now constructor.
      + ps. ps; [eapply p_blk_copy; eassumption|]. ps. constructor; eauto. constructor; eauto. constructor; eauto.
  Qed.
  Lemma p_nupc_process n n' (b : audio A1) (b' : audio A2) : Rnupc n n' -> Qa b b' ->
    Rres (Rpair Rnupc Qa) (nupc_process R1 n b) (nupc_process R2 n' b').
  Proof.
    intros Hu Hb. unfold nupc_process. rewrite (p_num_samples Hb).
    ps; [eapply Rwhile with (P := Rloop Rnupc); [apply p_loop_cond|apply p_nupc_round|now do 2 constructor]|].
    match goal with H : Rloop _ _ _ |- _ => destruct H as [? ? ? ? [? ? ? ? ? ?] ?] end. ps. now constructor.
  Qed.

  (** ** Convolver *)
  Inductive Rconv : convolver A1 -> convolver A2 -> Prop :=
  | MkRconv : forall r r' n n' s c b m, Qa r r' -> Rnupc n n' ->
      Rconv {| c_routing := r; c_nupc := n; c_spec := s; c_channels := c; c_block := b; c_num_samples := m |}
            {| c_routing := r'; c_nupc := n'; c_spec := s; c_channels := c; c_block := b; c_num_samples := m |}.
  Lemma p_conv_reset c c' : Rconv c c' -> Rconv (conv_reset c) (conv_reset c').
  Proof. intros []. constructor; [eapply (p_audio_clear HQ); eassumption|eapply p_nupc_reset; eassumption]. Qed.
  Lemma p_conv_make_in (ir : audio A1) (ir' : audio A2) M spec : okc (length ir') ->
    (forall b, conv_block_size (Z.of_nat M) (cs_internal spec) = Ok b -> sizes_ok (Z.to_nat b) (num_samples ir')) ->
    okr ir' -> Qak ir ir' -> Rres Rconv (conv_make R1 ir M spec) (conv_make R2 ir' M spec).
  Proof.
    intros Hc Hok Hr H. unfold conv_make. rewrite (p_num_samples H), (F2_length H).
    destruct (conv_block_size (Z.of_nat M) (cs_internal spec)) as [b| |] eqn:Eb; cbn [bind]; try constructor.
    ps; [eapply p_nupc_make; [eassumption|now apply Hok|eassumption|eassumption]|]. ps. constructor; eauto. 
  Qed.
  Lemma p_route_in c c' (a b : audio A1) (a' b' : audio A2) : Rconv c c' -> Qa a a' -> Qa b b' ->
    Rres Qa (conv_route_in c a b) (conv_route_in c' a' b').
  Proof.
    intros [] Ha Hb. unfold conv_route_in. cbn [c_channels c_spec]. apply Rfor_n; eauto. intros i x y Hx.
    ps; [apply Rrefl|]. subst. ps; [apply Rget; eassumption|]. ps; [apply Rget; eassumption|].
    match goal with H1 : Ql ?z _ |- context [length ?z] => rewrite (F2_length H1) end.
    ps; [apply p_chan_apply; [apply p_copy|apply F2_firstn; eassumption|eassumption]|]. now apply Rset.
  Qed.
  Lemma p_route_out c c' (a b : audio A1) (a' b' : audio A2) : Rconv c c' -> Qa a a' -> Qa b b' ->
    Rres Qa (conv_route_out c a b) (conv_route_out c' a' b').
  Proof.
    intros [] Ha Hb. unfold conv_route_out. cbn [c_channels c_spec]. apply Rfor_n; [|eapply (p_audio_clear HQ); eassumption]. intros i x y Hx.
    ps; [apply Rrefl|]. subst. ps; [apply Rget; eassumption|]. ps; [apply Rget; eassumption|].
    match goal with H1 : Ql ?z _ |- context [length ?z] => rewrite (F2_length H1) end.
    ps; [apply p_chan_apply; [apply (p_add HQ)|apply F2_firstn; eassumption|eassumption]|]. now apply Rset.
  Qed.
  Lemma p_conv_round s s' : Rloop Rconv s s' -> Rres (Rloop Rconv) (conv_round R1 s) (conv_round R2 s').
  Proof.
    intros [? ? p ? [c c' out out' Hc Ho] <-]. unfold conv_round. rewrite (p_num_samples Ho), (p_whole Ho).
    pose proof Hc as Hc0. destruct Hc as [r r' n n' sp b k m Hr Hn].
    cbn [c_routing c_nupc c_spec c_channels c_block c_num_samples]. rewrite (p_whole Hr).
    ps; [apply Rrefl|]. subst. ps; [eapply p_view_read; eassumption|]. ps; [apply Rrefl|]. subst.
    ps; [eapply p_view_read; eassumption|]. ps; [eapply p_route_in; eassumption|]. ps; [eapply p_nupc_process; eassumption|]. ps.
    ps; [eapply p_blk_copy; eassumption|]. ps; [eapply p_route_out; eassumption|]. ps; [eapply p_blk_copy; eassumption|].
    ps. constructor; eauto. constructor; eauto. constructor; eauto.
  Qed.
  Lemma p_conv_process c c' (b : audio A1) (b' : audio A2) : Rconv c c' -> Qa b b' ->
    Rres (Rpair Rconv Qa) (conv_process R1 c b) (conv_process R2 c' b').
  Proof.
    intros Hc Hb. unfold conv_process. rewrite (p_num_samples Hb).
    ps; [eapply Rwhile with (P := Rloop Rconv); [apply p_loop_cond|apply p_conv_round|constructor; eauto; constructor; eauto]|].
    - destruct Hc. constructor; eauto.
    - match goal with H : Rloop _ _ _ |- _ => destruct H as [? ? ? ? [? ? ? ? ? ?] ?] end. ps. now constructor.
  Qed.

  (** ** sequences of calls *)
  Lemma p_feed : forall (bs : list (audio A1)) (bs' : list (audio A2)) c c', Rconv c c' -> Forall2 Qa bs bs' ->
    Rres (Rpair Rconv (Forall2 Qa)) (feed (conv_process R1) c bs) (feed (conv_process R2) c' bs').
  Proof.
    intros bs bs' c c' Hc H. revert c c' Hc. induction H; intros c c' Hc; cbn [feed]; [ps; now constructor|].
    ps; [eapply p_conv_process; eassumption|]. ps. ps; [apply IHForall2; eassumption|]. ps. ps. constructor; eauto.
  Qed.
  Lemma p_feed_sessions : forall (hs : list (list (audio A1))) (hs' : list (list (audio A2))) c c', Rconv c c' -> Forall2 (Forall2 Qa) hs hs' ->
    Rres (Rpair Rconv (Forall2 (Forall2 Qa))) (feed_sessions (conv_process R1) conv_reset c hs) (feed_sessions (conv_process R2) conv_reset c' hs').
  Proof.
    intros hs hs' c c' Hc H. revert c c' Hc. induction H; intros c c' Hc; cbn [feed_sessions]; [ps; now constructor|].
    ps; [eapply p_feed; eassumption|]. ps. ps; [apply IHForall2; eapply p_conv_reset; eassumption|]. ps. ps. constructor; eauto.
  Qed.
End Stack.

(** ** all sizes *)
Lemma respected_in {A1 A2 : arith} (Q Qk : sample A1 -> sample A2 -> Prop) : respected Q Qk -> respects Q Qk (fun _ => True).
Proof.
  intros HQ. split; try apply HQ; auto; intros; apply (r_pow HQ); constructor; try apply HQ; apply HQ.
Qed.
Lemma p_conv_make {A1 A2 : arith} (Q Qk : sample A1 -> sample A2 -> Prop) : respected Q Qk -> respected Qk Qk ->
  forall (R1 : rfft A1) (R2 : rfft A2), rfft_respected Qk R1 R2 ->
  forall M spec (ir : audio A1) (ir' : audio A2), Forall2 (Forall2 Qk) ir ir' ->
  Rres (Rconv Q Qk (fun _ => True)) (conv_make R1 ir M spec) (conv_make R2 ir' M spec).
Proof.
  intros HQ HK R1 R2 HRk M spec ir ir' H.
  apply (@p_conv_make_in A1 A2 Q Qk Qk (fun _ => True) (respected_in HQ) R1 R2 (fun _ => True) (fun _ => True) (fun _ => True) (fun _ _ => I) (fun _ => True)); auto.
  - intros. apply (p_upc_filter (respected_in HK) HRk); assumption.
  - intros. apply (p_multi_filter (respected_in HK)); auto.
  - split; auto. intros. apply Forall_forall. intros; exact I.
Qed.

(** * Single precision with overflow made visible

    The samples are those of ArithSingle.v, or [None] once a result has been above 2^127.  Only used to prove that this never
    happens. *)
From Coq Require Import Reals Lra.
From Flocq Require Import Core.
From Verif.Model Require Import Base Arith ArithReal ArithSingle Juce.
From Verif.Spec Require Import Transform Signal Precision.
From Verif.Proofs Require Import Lists ComplexAlg Butterfly Norms SingleProof SingleFFT SingleRoots.
Open Scope R_scope.

Definition big : R := 2 ^ 127.
Definition cap (z : R) : option R := if Rle_dec (Rabs (single z)) big then Some (single z) else None.
Definition lift2 (f : R -> R -> R) (x y : option R) : option R :=
  match x, y with Some a, Some b => cap (f a b) | _, _ => None end.
Definition Ext (pow : R * R -> nat -> R * R) : arith := {|
  sample := option R; s0 := Some 0; s1 := Some 1;
  sadd := lift2 Rplus;
  smul := fun x y => match x, y with
                     | Some a, Some b => cap (a * b)
                     | Some a, None => if Req_EM_T a 0 then Some 0 else None
                     | None, _ => None
                     end;
  ssub := lift2 Rminus;
  sopp := option_map Ropp;
  shalf := Some (1 / 2);
  sinvn := fun n => Some (single (/ INR n));
  scos := fun n => Some (single (cos (2 * PI / INR n)));
  ssin := fun n => Some (single (sin (2 * PI / INR n)));
  spow := fun w e => match w with
                     | (Some a, Some b) => (Some (fst (pow (a, b) e)), Some (snd (pow (a, b) e)))
                     | _ => (None, None)
                     end |}.

Lemma big_pos : 1 <= big. Proof. unfold big. lra. Qed.
Lemma cap_some z : Rabs (single z) <= big -> cap z = Some (single z).
Proof. intros H. unfold cap. destruct (Rle_dec _ _); [reflexivity|contradiction]. Qed.
Lemma cap_inv z r : cap z = Some r -> r = single z /\ Rabs r <= big.
Proof. unfold cap. destruct (Rle_dec _ _); [|discriminate]. intros E. injection E as <-. auto. Qed.
Lemma single0 : single 0 = 0. Proof. apply round_0. apply valid_rnd_N. Qed.
Lemma cap0 : cap 0 = Some 0.
Proof. rewrite cap_some; rewrite single0; [reflexivity|]. rewrite Rabs_R0. pose proof big_pos. lra. Qed.
Lemma ext_zero pow : zero_laws (Ext pow).
Proof.
  split; cbn.
  all: rewrite ?Rplus_0_r, ?Rminus_0_r; try apply cap0.
  intros [b|]; [rewrite Rmult_0_l; apply cap0|]. destruct (Req_EM_T 0 0); congruence.
Qed.

Lemma phi_1 : phi <= 1.
Proof. unfold phi. change 1 with (bpow radix2 0). apply bpow_le. lia. Qed.

Section Bounds.
  Variable pow : R * R -> nat -> R * R.
  Notation F := (SingleWith pow).
  Notation E := (Ext pow).
  (** a complex number, of modulus at most [M]; a real number *)
  Definition cb (M : R) (z : cplx E) : Prop := exists a b, z = (Some a, Some b) /\ modulus (a, b) <= M.
  Definition rb (M : R) (x : sample E) : Prop := exists a, x = Some a /\ Rabs a <= M.

  Lemma cb_weaken M M' z : cb M z -> M <= M' -> cb M' z.
  Proof. intros (a & b & -> & H) H'. exists a, b. split; auto. lra. Qed.
  Lemma rb_weaken M M' z : rb M z -> M <= M' -> rb M' z.
  Proof. intros (a & -> & H) H'. exists a. split; auto. lra. Qed.
  Lemma cb_0 M : 0 <= M -> cb M c0.
  Proof. intros H. exists 0, 0. split; [reflexivity|]. rewrite modulus_c0. exact H. Qed.
  Lemma rb_0 M : 0 <= M -> rb M s0.
  Proof. intros H. exists 0. split; [reflexivity|]. rewrite Rabs_R0. exact H. Qed.
  Lemma cb_creal M x : rb M x -> cb M (creal x).
  Proof. intros (a & -> & H). exists a, 0. split; [reflexivity|]. rewrite (modulus_creal a : modulus (a, 0) = _). exact H. Qed.
  Lemma cb_fst M z : cb M z -> rb M (fst z).
  Proof. intros (a & b & -> & H). exists a. split; auto. pose proof (modulus_fst (a, b)). cbn in *. lra. Qed.
  Lemma cb_snd M z : cb M z -> rb M (snd z).
  Proof. intros (a & b & -> & H). exists b. split; auto. pose proof (modulus_snd (a, b)). cbn in *. lra. Qed.
  Lemma cb_parts M z : rb M (fst z) -> rb M (snd z) -> cb (3 / 2 * M) z.
  Proof. destruct z as [x y]. intros (a & Ea & Ha) (b & Eb & Hb). cbn in *. subst. exists a, b. split; auto. now apply modulus_parts. Qed.

  Lemma cap_cb M z w : modulus (single z, single w) <= M -> M <= big -> cb M (cap z, cap w).
  Proof.
    intros H HM. pose proof (modulus_fst (single z, single w)). pose proof (modulus_snd (single z, single w)). cbn [fst snd] in *.
    exists (single z), (single w). rewrite !cap_some by lra. auto.
  Qed.
  Lemma cb_add M M' z z' : cb M z -> cb M' z' -> 1 <= M + M' -> (1 + 2 * u24) * (M + M') <= big ->
    cb ((1 + 2 * u24) * (M + M')) (cadd z z').
  Proof.
    intros (a & b & -> & H) (a' & b' & -> & H') HM HB. pose proof phi_1.
    pose proof (modulus_add (a, b) (a', b') : modulus (@cadd Rarith (a, b) (a', b')) <= _) as Ha.
    pose proof (cadd_err pow (a, b) (a', b') (M + M') ltac:(lra) ltac:(lra)) as He.
    pose proof (cdist_bound (@cadd F (a, b) (a', b')) (@cadd Rarith (a, b) (a', b'))) as Hd.
    cbn [cadd sadd Ext lift2 fst snd]. apply cap_cb; [|exact HB]. eapply Rle_trans; [exact Hd|]. lra.
  Qed.
  Lemma cb_sub M M' z z' : cb M z -> cb M' z' -> 1 <= M + M' -> (1 + 2 * u24) * (M + M') <= big ->
    cb ((1 + 2 * u24) * (M + M')) (csub z z').
  Proof.
    intros (a & b & -> & H) (a' & b' & -> & H') HM HB. pose proof phi_1.
    pose proof (modulus_sub (a, b) (a', b') : modulus (@csub Rarith (a, b) (a', b')) <= _) as Ha.
    pose proof (csub_err pow (a, b) (a', b') (M + M') ltac:(lra) ltac:(lra)) as He.
    pose proof (cdist_bound (@csub F (a, b) (a', b')) (@csub Rarith (a, b) (a', b'))) as Hd.
    cbn [csub ssub Ext lift2 fst snd]. apply cap_cb; [|exact HB]. eapply Rle_trans; [exact Hd|]. lra.
  Qed.
  Lemma single_le x M : Rabs x <= M -> 1 <= M -> Rabs (single x) <= (1 + u24) * M.
  Proof.
    intros H HM. pose proof phi_1. pose proof (single_errM x M H ltac:(lra)) as He.
    replace (single x) with (x + (single x - x)) by ring. eapply Rle_trans; [apply Rabs_triang|]. lra.
  Qed.
  Lemma cb_mul M M' z z' : cb M z -> cb M' z' -> 1 <= M * M' -> 0 <= M -> (1 + 5 * u24) * (M * M') <= big ->
    cb ((1 + 5 * u24) * (M * M')) (cmul z z').
  Proof.
    intros (a & b & -> & H) (a' & b' & -> & H') HM HM0 HB. pose proof phi_1. pose proof u24_pos.
    pose proof (modulus_mul (a, b) (a', b')) as Ha. pose proof (modulus_nonneg (a, b)). pose proof (modulus_nonneg (a', b')).
    assert (Hm : modulus (a, b) * modulus (a', b') <= M * M') by (apply Rmult_le_compat; auto).
    pose proof (cmul_err pow (a, b) (a', b') (M * M') Hm ltac:(lra)) as He.
    pose proof (cdist_bound (@cmul F (a, b) (a', b')) (@cmul Rarith (a, b) (a', b'))) as Hd.
    assert (S : forall x y, Rabs x <= modulus (a, b) -> Rabs y <= modulus (a', b') -> Rabs (single (x * y)) <= big).
    { intros x y Hx Hy. eapply Rle_trans; [apply single_le with (M := M * M'); auto|].
      - rewrite Rabs_mult. eapply Rle_trans; [|exact Hm]. apply Rmult_le_compat; auto; apply Rabs_pos.
      - nra. }
    pose proof (modulus_fst (a, b)). pose proof (modulus_snd (a, b)). pose proof (modulus_fst (a', b')). pose proof (modulus_snd (a', b')).
    cbn [fst snd] in *.
    unfold cmul. cbn [ssub sadd smul Ext fst snd]. rewrite !cap_some by (apply S; auto). cbn [lift2]. apply cap_cb; [|exact HB].
    eapply Rle_trans; [exact Hd|]. lra.
  Qed.
  Lemma cb_half M z : cb M z -> 2 <= M -> M <= big -> cb ((1 + 2 * u24) * (M / 2)) (cscale z shalf).
  Proof.
    intros (a & b & -> & H) HM HB. pose proof phi_1. pose proof u24_pos.
    pose proof (modulus_scale (a, b) (1 / 2)) as Ha. rewrite (Rabs_pos_eq (1 / 2)) in Ha by lra.
    pose proof (cscale_err pow (a, b) (1 / 2) (M / 2) ltac:(lra) ltac:(lra)) as He.
    pose proof (cdist_bound (@cscale F (a, b) (1 / 2)) (@cscale Rarith (a, b) (1 / 2))) as Hd.
    cbn [cscale smul Ext shalf fst snd]. apply cap_cb; [|unfold u24 in *; lra]. eapply Rle_trans; [exact Hd|]. lra.
  Qed.
  Lemma rb_add M M' x y : rb M x -> rb M' y -> 1 <= M + M' -> (1 + u24) * (M + M') <= big -> rb ((1 + u24) * (M + M')) (sadd x y).
  Proof.
    intros (a & -> & H) (b & -> & H') HM HB. cbn [sadd Ext lift2].
    assert (S : Rabs (single (a + b)) <= (1 + u24) * (M + M')).
    { apply single_le; auto. eapply Rle_trans; [apply Rabs_triang|]. lra. }
    exists (single (a + b)). rewrite cap_some by lra. auto.
  Qed.

  (** ** sums *)
  Lemma power_2 q n : 0 <= q <= 2 * u24 -> (n <= 2 ^ 20)%nat -> (1 + q) ^ n <= 2.
  Proof.
    intros Hq Hn.
    assert (Hi : INR n <= 1048576).
    { replace 1048576 with (INR (2 ^ 20)); [apply le_INR; exact Hn|]. rewrite pow_INR. replace (INR 2) with 2 by (cbn; lra). lra. }
    pose proof (pos_INR n). assert (INR n * q <= / 8) by (unfold u24 in *; nra).
    pose proof (power_cap q n ltac:(lra) H0). lra.
  Qed.
  Lemma cb_sum M n f : 1 <= M -> (n <= 2 ^ 20)%nat -> 2 * INR n * M <= big -> (forall i, (i < n)%nat -> cb M (f i)) ->
    cb (2 * INR n * M) (csum n f).
  Proof.
    intros HM Hn HB H. pose proof u24_pos.
    assert (G : forall m, (m <= n)%nat -> cb ((1 + 2 * u24) ^ m * INR m * M) (csum m f)).
    { induction m as [|m IH]; intros Hm; cbn [csum].
      - apply cb_0. cbn. lra.
      - assert (P : 1 <= (1 + 2 * u24) ^ m) by (apply pow_R1_Rle; lra). pose proof (pos_INR m).
        assert (P2 : (1 + 2 * u24) ^ S m <= 2) by (apply power_2; [lra|lia]). rewrite S_INR in *.
        assert (I1 : (INR m + 1) * M <= INR n * M).
        { apply Rmult_le_compat_r; [lra|]. rewrite <- S_INR. now apply le_INR. }
        assert (T : (1 + 2 * u24) * ((1 + 2 * u24) ^ m * INR m * M + M) <= (1 + 2 * u24) ^ S m * (INR m + 1) * M).
        { cbn [Rpow_def.pow]. set (p := (1 + 2 * u24) ^ m) in *.
          replace ((1 + 2 * u24) * p * (INR m + 1) * M) with ((1 + 2 * u24) * (p * INR m * M + p * M)) by ring.
          apply Rmult_le_compat_l; [lra|]. assert (1 * M <= p * M) by (apply Rmult_le_compat_r; lra). lra. }
        assert (T2 : (1 + 2 * u24) ^ S m * (INR m + 1) * M <= 2 * INR n * M).
        { rewrite !Rmult_assoc. apply Rmult_le_compat; try lra; [apply pow_le; lra|]. apply Rmult_le_pos; lra. }
        eapply cb_weaken; [apply cb_add; [apply IH; lia|apply H; lia| |]|exact T].
        + assert (0 <= (1 + 2 * u24) ^ m * INR m * M) by (apply Rmult_le_pos; [apply Rmult_le_pos|]; lra). lra.
        + eapply Rle_trans; [exact T|]. lra. }
    eapply cb_weaken; [apply G; lia|]. pose proof (power_2 (2 * u24) n ltac:(lra) Hn). pose proof (pos_INR n).
    rewrite !Rmult_assoc. apply Rmult_le_compat_r; [apply Rmult_le_pos; lra|]. assumption.
  Qed.
End Bounds.

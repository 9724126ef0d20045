(** * The real numbers are an exact sample arithmetic *)
From Coq Require Import Reals Lra.
From Verif.Model Require Import Base Arith.
Open Scope R_scope.

(** No code: the instance of [arith] with real numbers. *)
Definition Rarith : arith := {|
  sample := R; s0 := 0; s1 := 1; sadd := Rplus; smul := Rmult; ssub := Rminus; sopp := Ropp;
  shalf := 1 / 2;
  sinvn := fun n => / INR n;
  scos := fun n => cos (2 * PI / INR n);
  ssin := fun n => sin (2 * PI / INR n);
  spow := npow (1, 0) (fun a b => (fst a * fst b - snd a * snd b, fst a * snd b + snd a * fst b))
|}.

Lemma sofnat_INR : forall n, @sofnat Rarith n = INR n.
Proof.
  induction n as [|n IH]; [reflexivity|].
  rewrite S_INR. cbn [sofnat]. rewrite IH. cbn. ring.
Qed.

Theorem Rarith_laws : arith_laws Rarith.
Proof.
  constructor.
  - constructor; intros; cbn in *; try ring; try reflexivity.
  - cbn. lra.
  - intros n _. cbn. pose proof (sin2_cos2 (2 * PI / INR n)) as H.
    unfold Rsqr in H. lra.
  - unfold cis, c1. cbn. f_equal.
    + replace (2 * PI / 1) with (2 * PI) by field. apply cos_2PI.
    + replace (2 * PI / 1) with (2 * PI) by field. apply sin_2PI.
  - unfold cis, copp, c1. cbn.
    replace (2 * PI / (1 + 1)) with PI by field.
    rewrite cos_PI, sin_PI. f_equal; ring.
  - intros w e. induction e as [|e IH]; [reflexivity|]. cbn [cpow]. rewrite <- IH. reflexivity.
  - intros n Hn. unfold cis, cmul.
    assert (Hx : 2 * PI / INR n = 2 * (2 * PI / INR (2 * n))).
    { rewrite mult_INR. cbn [INR]. field. apply not_0_INR. lia. }
    cbn [fst snd scos ssin Rarith sadd smul ssub sample].
    rewrite Hx. rewrite cos_2a, sin_2a. f_equal; ring.
Qed.

Theorem Rarith_inv : inv_law Rarith.
Proof.
  intros n Hn. rewrite sofnat_INR. cbn. apply Rinv_r. apply not_0_INR. lia.
Qed.

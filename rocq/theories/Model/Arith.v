(** * Sample arithmetic

    Samples are C++ [float]s.  The model is parametric in the arithmetic used
    for them: [arith] lists the operations the code applies to samples and
    [arith_laws] the laws of exact arithmetic.  The instance with rounded samples is
    ArithSingle.v. *)
From Coq Require Import Ring_theory.
From Verif.Model Require Import Base.

(** powers by repeated multiplication, for the instances *)
Fixpoint npow {T : Type} (one : T) (mul : T -> T -> T) (w : T) (e : nat) : T :=
  match e with 0 => one | S e' => mul w (npow one mul w e') end.

(** No code of its own: the operations the code applies to [float], as a parameter of the model *)
Record arith : Type := {
  sample : Type;
  s0 : sample;
  s1 : sample;
  sadd : sample -> sample -> sample;
  smul : sample -> sample -> sample;
  ssub : sample -> sample -> sample;
  sopp : sample -> sample;
  shalf : sample;                 (* the literal 0.5f *)
  sinvn : nat -> sample;          (* 1 / n, used by LinearSmoothedValue *)
  scos : nat -> sample;           (* cos (2 pi / n) *)
  ssin : nat -> sample;           (* sin (2 pi / n) *)
  spow : sample * sample -> nat -> sample * sample
                                  (* std::pow (w, complex {e, 0}), e a natural number *)
}.
Arguments s0 {_}. Arguments s1 {_}.
Arguments sadd {_} _ _. Arguments smul {_} _ _. Arguments ssub {_} _ _.
Arguments sopp {_} _. Arguments shalf {_}.
Arguments sinvn {_} _. Arguments scos {_} _. Arguments ssin {_} _. Arguments spow {_} _ _.

(** [std::complex<float>] *)
Definition cplx (A : arith) : Type := (sample A * sample A)%type.

Section Complex.
  Context {A : arith}.
  (** [std::complex<float> {}] (ComplexBuffer.cpp:9, 46-49) *)
  Definition c0 : cplx A := (s0, s0).
  (** [std::complex<float> {1.f, 0.f}]; in statements and in [cpow] only *)
  Definition c1 : cplx A := (s1, s0).
  (** [operator+] of std::complex (FFT.cpp:5-61, FFTDecomposition.cpp:5-70, ComplexBuffer.cpp:61-77) *)
  Definition cadd (a b : cplx A) : cplx A := (sadd (fst a) (fst b), sadd (snd a) (snd b)).
  (** [operator-] of std::complex (FFT.cpp:5-61, FFTDecomposition.cpp:5-70) *)
  Definition csub (a b : cplx A) : cplx A := (ssub (fst a) (fst b), ssub (snd a) (snd b)).
  (** unary [operator-] of std::complex; in statements only *)
  Definition copp (a : cplx A) : cplx A := (sopp (fst a), sopp (snd a)).
  (** [operator*] of std::complex (FFT.cpp:5-61, FFTDecomposition.cpp:5-70, ComplexBuffer.cpp:51-77): the
      textbook formula; the recovery from NaNs that C99 Annex G adds is not modelled *)
  Definition cmul (a b : cplx A) : cplx A :=
    (ssub (smul (fst a) (fst b)) (smul (snd a) (snd b)),
     sadd (smul (fst a) (snd b)) (smul (snd a) (fst b))).
  (** complex times float (FFT.cpp:34-61, FFTDecomposition.cpp:39-70: [* 0.5f]) *)
  Definition cscale (a : cplx A) (x : sample A) : cplx A := (smul (fst a) x, smul (snd a) x).
  (** [std::conj]; in statements only *)
  Definition conj (a : cplx A) : cplx A := (fst a, sopp (snd a)).
  (** [std::complex<float> {x, 0.f}] *)
  Definition creal (x : sample A) : cplx A := (x, s0).
  (** the exact power; in [arith_laws] and statements only *)
  Fixpoint cpow (w : cplx A) (e : nat) : cplx A :=
    match e with 0 => c1 | S e' => cmul w (cpow w e') end.
  (** [std::exp (complex (0, twoPi / n))] and [std::exp (complex (0, -twoPi / n))] (FFT.cpp:12-13, 41-42,
      FFTDecomposition.cpp:20-21, 54-55) *)
  Definition cis (n : nat) : cplx A := (scos n, ssin n).
  Definition cis_neg (n : nat) : cplx A := (scos n, sopp (ssin n)).
End Complex.

(** The laws of exact arithmetic. [cos]/[sin] are only constrained through the
    points they give on the unit circle. *)
Record arith_laws (A : arith) : Prop := {
  law_ring : ring_theory (@s0 A) s1 sadd smul ssub sopp eq;
  law_half : @sadd A shalf shalf = s1;
  law_unit : forall n, 0 < n -> sadd (smul (scos n) (scos n)) (smul (ssin n) (ssin n)) = @s1 A;
  law_cis1 : @cis A 1 = c1;
  law_cis2 : @cis A 2 = copp c1;
  law_pow : forall (w : cplx A) e, spow w e = cpow w e;
  law_square : forall n, 0 < n -> cmul (cis (2 * n)) (cis (2 * n)) = @cis A n
}.

(** The law of the reciprocals, needed only for fades. *)
Fixpoint sofnat {A : arith} (n : nat) : sample A :=
  match n with 0 => s0 | S n' => sadd s1 (sofnat n') end.
Definition inv_law (A : arith) : Prop :=
  forall n, 0 < n -> smul (sofnat n) (sinvn n) = @s1 A.

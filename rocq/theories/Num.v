(** Number interface of the model.

    Every model function is written once over a record [NumOps]; property theorems
    instantiate it with the real numbers ([ROps]), rational witnesses with canonical rationals
    ([QcOps]) and rounding witnesses with Coq's primitive IEEE-754 binary64 numbers
    ([FloatOps]).  The three comparisons are separate operations so that NaN behaves as it
    does in Python/torch (all three are false). *)
From Coq Require Import ZArith QArith Qcanon Qabs Reals Qreals Bool.
From Coq Require Import Floats Uint63.

Record NumOps : Type := MkNum {
  num :> Type;
  nQ : Q -> num;                       (* literals *)
  nadd : num -> num -> num;
  nsub : num -> num -> num;
  nmul : num -> num -> num;
  ndiv : num -> num -> num;
  nopp : num -> num;
  nabs : num -> num;
  nsqrt : num -> num;
  npowr : num -> num -> num;           (* x ** y with a real exponent *)
  nmax : num -> num -> num;            (* torch.max(a, b): propagates NaN *)
  nmin : num -> num -> num;            (* torch.min(a, b): propagates NaN *)
  nltb : num -> num -> bool;
  nleb : num -> num -> bool;
  neqb : num -> num -> bool
}.

Arguments nQ {_}.
Arguments nadd {_}. Arguments nsub {_}. Arguments nmul {_}. Arguments ndiv {_}.
Arguments nopp {_}. Arguments nabs {_}. Arguments nsqrt {_}. Arguments npowr {_}.
Arguments nmax {_}. Arguments nmin {_}.
Arguments nltb {_}. Arguments nleb {_}. Arguments neqb {_}.

Declare Scope num_scope.
Delimit Scope num_scope with N.
Notation "a + b" := (nadd a b) : num_scope.
Notation "a - b" := (nsub a b) : num_scope.
Notation "a * b" := (nmul a b) : num_scope.
Notation "a / b" := (ndiv a b) : num_scope.
Notation "- a" := (nopp a) : num_scope.
Notation "a <? b" := (nltb a b) : num_scope.
Notation "a <=? b" := (nleb a b) : num_scope.
Notation "a =? b" := (neqb a b) : num_scope.
Notation n0 := (nQ 0%Q).
Notation n1 := (nQ 1%Q).
Notation nhalf := (nQ (1#2)%Q).

(** Python's builtin [max(a, b)]: returns [b] iff [b > a]. *)
Definition pymax {K : NumOps} (a b : K) : K := if nltb a b then b else a.

(** Integer powers [x ** n], n >= 0. *)
Fixpoint npow {K : NumOps} (x : K) (n : nat) : K :=
  match n with O => n1 | S m => nmul x (npow x m) end.

(** ** Real numbers *)

Definition Rltb (x y : R) : bool := if Rlt_dec x y then true else false.
Definition Rleb (x y : R) : bool := if Rle_dec x y then true else false.
Definition Reqb (x y : R) : bool := if Req_EM_T x y then true else false.

(** [x ** y] for x >= 0 (torch yields NaN for a negative base and a non-integer exponent;
    the model never needs that case). *)
Definition Rpw (x y : R) : R :=
  if Req_EM_T x 0 then (if Req_EM_T y 0 then 1%R else 0%R) else Rpower x y.

Definition ROps : NumOps := {|
  num := R; nQ := Q2R;
  nadd := Rplus; nsub := Rminus; nmul := Rmult; ndiv := Rdiv;
  nopp := Ropp; nabs := Rabs; nsqrt := R_sqrt.sqrt; npowr := Rpw;
  nmax := Rmax; nmin := Rmin;
  nltb := Rltb; nleb := Rleb; neqb := Reqb |}.

(** ** Canonical rationals (executable, Leibniz equality).
    Square root and real powers are parameters: witnesses that use them must not depend on them. *)

Definition Qcltb (x y : Qc) : bool := negb (Qle_bool (this y) (this x)).
Definition Qcleb (x y : Qc) : bool := Qle_bool (this x) (this y).
Definition Qceqb (x y : Qc) : bool := Qeq_bool (this x) (this y).
Definition Qcabs' (x : Qc) : Qc := if Qcltb x (Q2Qc 0) then Qcopp x else x.

Definition QcOps (sq : Qc -> Qc) (pw : Qc -> Qc -> Qc) : NumOps := {|
  num := Qc; nQ := Q2Qc;
  nadd := Qcplus; nsub := Qcminus; nmul := Qcmult; ndiv := Qcdiv;
  nopp := Qcopp; nabs := Qcabs'; nsqrt := sq; npowr := pw;
  nmax := fun a b => if Qcltb a b then b else a;
  nmin := fun a b => if Qcltb a b then a else b;
  nltb := Qcltb; nleb := Qcleb; neqb := Qceqb |}.

(** ** IEEE-754 binary64 *)

Definition float_of_Z (z : Z) : float :=
  match z with
  | Z0 => PrimFloat.zero
  | Zpos _ => PrimFloat.of_uint63 (Uint63.of_Z z)
  | Zneg p => PrimFloat.opp (PrimFloat.of_uint63 (Uint63.of_Z (Zpos p)))
  end.

(** A literal [a/b] with |a|, b < 2^53 is correctly rounded by one division. *)
Definition float_of_Q (q : Q) : float :=
  PrimFloat.div (float_of_Z (Qnum q)) (float_of_Z (Zpos (Qden q))).

Definition is_nan_f (x : float) : bool := negb (PrimFloat.eqb x x).

Definition FloatOps (pw : float -> float -> float) : NumOps := {|
  num := float; nQ := float_of_Q;
  nadd := PrimFloat.add; nsub := PrimFloat.sub; nmul := PrimFloat.mul; ndiv := PrimFloat.div;
  nopp := PrimFloat.opp; nabs := PrimFloat.abs; nsqrt := PrimFloat.sqrt; npowr := pw;
  nmax := fun a b => if is_nan_f a then a else if is_nan_f b then b else
                     if PrimFloat.ltb a b then b else a;
  nmin := fun a b => if is_nan_f a then a else if is_nan_f b then b else
                     if PrimFloat.ltb b a then b else a;
  nltb := PrimFloat.ltb; nleb := PrimFloat.leb; neqb := PrimFloat.eqb |}.

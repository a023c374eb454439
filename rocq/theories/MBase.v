(** Model of the numeric kernels of base.py: [_NDF], [_CND], [_CBND]. *)
From Coq Require Import Reals QArith ZArith List.
From Verif Require Import Num.
Import ListNotations.
Open Scope num_scope.

Section Base.
Context {T : Type} `{Num T}.

(** base.py:36 [_NDF]: [exp(-x * x / 2) / sqrt(8 * atan(1))]. *)
Definition ndf (x : T) : T :=
  expn ((- x) * x / lit 2) / sqrn (lit 8 * atn (lit 1)).

(** base.py:57 the argument [k = 1 / (1 + 0.2316419 * abs(x))] inside [_CND]. *)
Definition cnd_k (x : T) : T := lit 1 / (lit 1 + lit 0.2316419 * absn x).

(** base.py:58-66, the polynomial inside [_CND]. *)
Definition cnd_poly (k : T) : T :=
  lit 0.319381530 * k + lit (-0.356563782) * k ^ 2 + lit 1.781477937 * k ^ 3
  + lit (-1.821255978) * k ^ 4 + lit 1.330274429 * k ^ 5.

(** base.py:38-70 [_CND]. *)
Definition cnd (x : T) : T :=
  let k := cnd_k x in
  let result := ndf x * cnd_poly k - lit 0.5 in
  lit 0.5 - result * sgn x.

(** base.py:85-86 the Gauss quadrature tables in [_CBND]. *)
Definition cbnd_X : list T :=
  [lit 0.24840615; lit 0.39233107; lit 0.21141819; lit 0.03324666; lit 0.00082485334].
Definition cbnd_y : list T :=
  [lit 0.10024215; lit 0.48281397; lit 1.0609498; lit 1.7797294; lit 2.6697604].

(** base.py:90-99: the double loop (left-to-right accumulation, [I] outer, [j] inner). *)
Definition cbnd_quad (a1 b1 rho : T) : T :=
  fold_left (fun s Iy =>
    fold_left (fun s jy =>
      s + fst Iy * fst jy *
        expn (a1 * (lit 2 * snd Iy - a1) + b1 * (lit 2 * snd jy - b1)
              + lit 2 * rho * (snd Iy - a1) * (snd jy - b1)))
      (combine cbnd_X cbnd_y) s)
    (combine cbnd_X cbnd_y) (lit 0).

(** base.py:82-84: [rho] is moved off +-1. *)
Definition cbnd_rho (rho : T) : T :=
  if absn rho =? lit 1 then rho - lit 1e-12 * sgn rho else rho.

(** base.py:72-128 [_CBND].  Recursion is bounded by [fuel] ([None]: fuel exhausted, or the
    function falls off its end, which in Python returns [None] at line 128); [cbnd_fuel_enough] in
    PCbnd.v shows that three levels always suffice. *)
Fixpoint cbnd_fuel (fuel : nat) (a b rho : T) : option T :=
  match fuel with
  | O => None
  | S fuel' =>
    let rho := cbnd_rho rho in
    let a1 := a / sqrn (lit 2 * (lit 1 - rho ^ 2)) in
    let b1 := b / sqrn (lit 2 * (lit 1 - rho ^ 2)) in
    if (a <=? lit 0) && (b <=? lit 0) && (rho <=? lit 0) then
      Some (sqrn (lit 1 - rho ^ 2) / pinum * cbnd_quad a1 b1 rho)
    else if (a <=? lit 0) && (b >=? lit 0) && (rho >=? lit 0) then
      match cbnd_fuel fuel' a (- b) (- rho) with
      | Some v => Some (cnd a - v) | None => None end
    else if (a >=? lit 0) && (b <=? lit 0) && (rho >=? lit 0) then
      match cbnd_fuel fuel' (- a) b (- rho) with
      | Some v => Some (cnd b - v) | None => None end
    else if (a >=? lit 0) && (b >=? lit 0) && (rho <=? lit 0) then
      match cbnd_fuel fuel' (- a) (- b) rho with
      | Some v => Some (cnd a + cnd b - lit 1 + v) | None => None end
    else if a * b * rho >=? lit 0 then
      let q := sqrn (a ^ 2 - lit 2 * rho * a * b + b ^ 2) in
      let rho1 := (rho * a - b) * sgn a / q in
      let rho2 := (rho * b - a) * sgn b / q in
      let delta := (lit 1 - sgn a * sgn b) / lit 4 in
      match cbnd_fuel fuel' a (lit 0) rho1, cbnd_fuel fuel' b (lit 0) rho2 with
      | Some v1, Some v2 => Some (v1 + v2 - delta)
      | _, _ => None
      end
    else None
  end%bool.

Definition cbnd (a b rho : T) : option T := cbnd_fuel 4 a b rho.

End Base.

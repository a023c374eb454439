(** Specification of the two-asset lattice and of the documented payoffs (bitree3d.py:50-93). *)
From Coq Require Import Reals ZArith List.
From Verif Require Import STrees SLattice.
Import ListNotations.
Open Scope R_scope.

(** One step: each asset goes up or down, the four combinations have probability 1/4. *)
Definition sign (up : bool) : R := if up then 1 else -1.
Definition two_moves : list (bool * bool) := [(false, false); (true, false); (false, true); (true, true)].
Definition quarter (a : bool * bool) : R := 1 / 4.
Definition factor1 (b1 s1 dt : R) (a : bool * bool) : R :=
  exp ((b1 - s1 ^ 2 / 2) * dt + s1 * (sign (fst a) * sqrt dt)).
Definition factor2 (b2 s2 rho dt : R) (a : bool * bool) : R :=
  exp ((b2 - s2 ^ 2 / 2) * dt
       + s2 * (rho * (sign (fst a) * sqrt dt) + sqrt (1 - rho ^ 2) * (sign (snd a) * sqrt dt))).
Definition step2 (b1 b2 s1 s2 rho dt : R) (a : bool * bool) (x : R * R) : R * R :=
  (fst x * factor1 b1 s1 dt a, snd x * factor2 b2 s2 rho dt a).

(** Documented payoffs; [None] for a code that is not documented. *)
Definition doc_payoff (code : Z) (call : bool) (Q1 Q2 K K2 S1 S2 : R) : option R :=
  match code, call with
  | 1%Z, true => Some (Rmax 0 (Q1 * S1 - Q2 * S2 - K))
  | 1%Z, false => Some (Rmax 0 (K - (Q1 * S1 - Q2 * S2)))
  | 2%Z, true => Some (Rmax 0 (Rmax (Q1 * S1) (Q2 * S2) - K))
  | 2%Z, false => Some (Rmax 0 (K - Rmax (Q1 * S1) (Q2 * S2)))
  | 3%Z, true => Some (Rmax 0 (Rmin (Q1 * S1) (Q2 * S2) - K))
  | 3%Z, false => Some (Rmax 0 (K - Rmin (Q1 * S1) (Q2 * S2)))
  | 4%Z, true => Some (Rmax 0 (Rmax (Q1 * S1 - K) (Q2 * S2 - K2)))
  | 4%Z, false => Some (Rmax 0 (Rmax (K - Q1 * S1) (K2 - Q2 * S2)))
  | 5%Z, true => Some (Rmax 0 (Rmax (Q1 * S1 - K) (K2 - Q2 * S2)))
  | 5%Z, false => Some (Rmax 0 (Rmax (K - Q1 * S1) (Q2 * S2 - K2)))
  | 6%Z, true => Some (Rmax 0 (Q1 * S1 + Q2 * S2 - K))
  | 6%Z, false => Some (Rmax 0 (K - (Q2 * S2 + Q1 * S1)))
  | 7%Z, _ => Some (Rmax 0 (Q2 * S2 - Q1 * S1))
  | 8%Z, true => Some (Rmax 0 (Q1 * S1 / (Q2 * S2) - K))
  | 8%Z, false => Some (Rmax 0 (K - Q1 * S1 / (Q2 * S2)))
  | 9%Z, true => Some (Rmax 0 (Q1 * S1 * Q2 * S2 - K))
  | 9%Z, false => Some (Rmax 0 (K - Q1 * S1 * Q2 * S2))
  | _, _ => None
  end.

(** Discounted expectation, and value of an exercise policy, on the n-step lattice. *)
Definition lattice_expect (b1 b2 s1 s2 rho r t : R) (n : nat) (g : R * R -> R) (x : R * R) : R :=
  gexpect quarter (step2 b1 b2 s1 s2 rho (t / INR n)) two_moves (exp (- r * (t / INR n))) g n x.
Definition lattice_policy (b1 b2 s1 s2 rho r t : R) (n : nat) (stop : list (bool * bool) -> bool)
   (g : R * R -> R) (x : R * R) : R :=
  gpolicy quarter (step2 b1 b2 s1 s2 rho (t / INR n)) two_moves stop (exp (- r * (t / INR n))) g n x.

(** forward prices implied by the lattice *)
Definition lattice_fwd1 (S1 t b1 s1 : R) (n : nat) : R :=
  let dt := t / INR n in
  S1 * (exp ((b1 - s1 ^ 2 / 2) * dt) * ((exp (s1 * sqrt dt) + exp (- (s1 * sqrt dt))) / 2)) ^ n.
Definition lattice_fwd2 (S2 t b2 s2 rho : R) (n : nat) : R :=
  let dt := t / INR n in
  S2 * (exp ((b2 - s2 ^ 2 / 2) * dt) * ((exp (s2 * rho * sqrt dt) + exp (- (s2 * rho * sqrt dt))) / 2)
   * ((exp (s2 * sqrt (1 - rho ^ 2) * sqrt dt) + exp (- (s2 * sqrt (1 - rho ^ 2) * sqrt dt))) / 2)) ^ n.

(** The nine moves of the trinomial spread tree and their probabilities. *)
Definition nine : list (nat * nat) := list_prod [0%nat; 1%nat; 2%nat] [0%nat; 1%nat; 2%nat].
Definition third (a : nat) : R := if Nat.eqb a 1 then 4 / 6 else 1 / 6.
Definition pm9 (ab : nat * nat) : R := third (fst ab) * third (snd ab).

(** Formulas of tree_spread.py:49-69 in ordinary notation. *)
Definition eig (plus : bool) (s1 s2 rho : R) : R :=
  let q := s1 ^ 2 + s2 ^ 2 in let d := sqrt (q ^ 2 - 4 * (1 - rho ^ 2) * s1 ^ 2 * s2 ^ 2) in
  (if plus then q + d else q - d) / 2.
Definition rot (s1 s2 rho : R) : R := atan ((eig true s1 s2 rho - s1 ^ 2) / (rho * s1 * s2)).
Definition log_v1 (s1 s2 rho dt : R) := cos (rot s1 s2 rho) * sqrt (eig true s1 s2 rho) * sqrt (3 * dt) - s1 ^ 2 / 2 * dt.
Definition log_h1 (s1 s2 rho dt : R) := - (sin (rot s1 s2 rho) * sqrt (eig false s1 s2 rho) * sqrt (3 * dt)) - s1 ^ 2 / 2 * dt.
Definition log_v2 (s1 s2 rho dt : R) := sin (rot s1 s2 rho) * sqrt (eig true s1 s2 rho) * sqrt (3 * dt) - s2 ^ 2 / 2 * dt.
Definition log_h2 (s1 s2 rho dt : R) := cos (rot s1 s2 rho) * sqrt (eig false s1 s2 rho) * sqrt (3 * dt) - s2 ^ 2 / 2 * dt.
(** log-returns of the two assets in one step; a, b in {0,1,2} *)
Definition ret1 (s1 s2 rho dt : R) (ab : nat * nat) : R :=
  2 * (1 - INR (fst ab)) * log_v1 s1 s2 rho dt + 2 * (INR (snd ab) - 1) * log_h1 s1 s2 rho dt.
Definition ret2 (s1 s2 rho dt : R) (ab : nat * nat) : R :=
  2 * (1 - INR (fst ab)) * log_v2 s1 s2 rho dt + 2 * (INR (snd ab) - 1) * log_h2 s1 s2 rho dt.
Definition ret_act (s1 s2 rho dt : R) (ab : nat * nat) (x : R * R) : R * R :=
  (fst x * exp (ret1 s1 s2 rho dt ab), snd x * exp (ret2 s1 s2 rho dt ab)).


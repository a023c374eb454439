(** Specification vocabulary for the tree pricers: textbook lattices, paths, exercise policies.
    Nothing here refers to the way the code computes prices. *)
From Coq Require Import Reals String List Arith.
From Verif Require Import Num Py MTrees.
Import ListNotations.
Open Scope R_scope.

(** A move is (probability, factor).  A path is a list of moves. *)
Notation move := (R * R)%type.

(** all paths of length n *)
Fixpoint paths (mv : list move) (n : nat) : list (list move) :=
  match n with
  | O => [[]]
  | S n' => flat_map (fun a => map (cons a) (paths mv n')) mv
  end.

Definition sumR (l : list R) : R := fold_right Rplus 0 l.
Definition prob (w : list move) : R := fold_right (fun a q => fst a * q) 1 w.
(** asset price after the moves [h] *)
Definition price_after (x : R) (h : list move) : R := fold_left (fun y a => y * snd a) h x.

(** Discounted payoff received along the rest [w] of a path after history [h] by a holder who
    exercises the first time [stop history] is true; at the end the payoff is max(.,0). *)
Fixpoint reward (stop : list move -> bool) (Df z K x : R) (h w : list move) : R :=
  match w with
  | [] => Df ^ length h * Rmax (z * (price_after x h - K)) 0
  | a :: w' =>
      if stop h then Df ^ length h * (z * (price_after x h - K))
      else reward stop Df z K x (h ++ [a]) w'
  end.

(** expected discounted payoff of an exercise policy *)
Definition policy_value (mv : list move) (stop : list move -> bool) (Df z K : R) (n : nat) (x : R) : R :=
  sumR (map (fun w => prob w * reward stop Df z K x [] w) (paths mv n)).


(** The four tree option classes. *)
Inductive tree_class := Bi (k : bi_model) | Tri.

(** [call(tree)] / [put(tree)] of a class. *)
Definition tree_price {T} {N : Num T} (c : tree_class) (o : TreeOption T) (call tree : bool) : res (tree_out T) :=
  match c with
  | Bi k => if call then bi_call k o tree else bi_put k o tree
  | Tri => if call then tri_call o tree else tri_put o tree
  end.

Definition zof (call : bool) : R := if call then 1 else -1.
Definition the_type (amer : bool) : string := if amer then "american"%string else "european"%string.

(** Textbook jump sizes and up probability for a binomial step of length dt. *)
Definition step_u (k : bi_model) (b sigma dt : R) : R :=
  match k with
  | CRR => exp (sigma * sqrt dt)
  | JR => exp ((b - sigma ^ 2 / 2) * dt + sigma * sqrt dt)
  | TIAN => let V := exp (sigma ^ 2 * dt) in
            exp (b * dt) * V / 2 * (V + 1 + sqrt (V ^ 2 + 2 * V - 3))
  end.
Definition step_d (k : bi_model) (b sigma dt : R) : R :=
  match k with
  | CRR => exp (- (sigma * sqrt dt))
  | JR => exp ((b - sigma ^ 2 / 2) * dt - sigma * sqrt dt)
  | TIAN => let V := exp (sigma ^ 2 * dt) in
            exp (b * dt) * V / 2 * (V + 1 - sqrt (V ^ 2 + 2 * V - 3))
  end.
Definition step_p (k : bi_model) (b sigma dt : R) : R :=
  match k with
  | JR => 1 / 2
  | _ => (exp (b * dt) - step_d k b sigma dt) / (step_u k b sigma dt - step_d k b sigma dt)
  end.

(** Moves of one time step of length dt.  The trinomial step is two CRR steps of length dt/2. *)
Definition moves (c : tree_class) (b sigma dt : R) : list move :=
  match c with
  | Bi k => [(step_p k b sigma dt, step_u k b sigma dt); (1 - step_p k b sigma dt, step_d k b sigma dt)]
  | Tri => let q := step_p CRR b sigma (dt / 2) in let h := sigma * sqrt (dt / 2) in
           [(q ^ 2, exp (2 * h)); (2 * q * (1 - q), 1); ((1 - q) ^ 2, exp (- (2 * h)))]
  end.

(** All move weights are probabilities. *)
Definition weights_ok (c : tree_class) (b sigma dt : R) : Prop :=
  forall a, In a (moves c b sigma dt) -> 0 <= fst a.

(** Model of src/finoptions/spread_options: the Rubinstein 3D binomial tree (bitree3d.py), Kirk's
    approximation (spreadapprox.py) and the unfinished trinomial spread tree (tree_spread.py).

    Simplifications: the numbers of steps and the option code are integers, [n] a natural number
    (n = 0 with Python numbers raises ZeroDivisionError at [t / n]); scalar parameters only.  A strike
    may be [None] (the default of BionomialSpreadAllTypes); arithmetic with [None] raises TypeError. *)
From Coq Require Import List Arith ZArith QArith String Bool.
From Verif Require Import Num Py Arr MBase MTrees.
Import ListNotations.
Open Scope py_scope.
Open Scope nat_scope.

(** Attributes of BionomialSpreadAllTypes, bitree3d.py:116-159.  [s3_dt] to [s3_d] are the values the
    constructor computes once and the pricing methods reuse. *)
Record Spread3D (T : Type) := attrs3D {
  s3_S1 : T; s3_S2 : T; s3_t : T; s3_r : T; s3_b1 : T; s3_b2 : T; s3_sigma1 : T; s3_sigma2 : T;
  s3_rho : T; s3_K : option T; s3_K2 : option T; s3_Q1 : T; s3_Q2 : T; s3_option : Z;
  s3_otype : string; s3_n : nat; s3_dt : T; s3_mu1 : T; s3_mu2 : T; s3_u : T; s3_d : T }.
Arguments attrs3D {T}. Arguments s3_S1 {T}. Arguments s3_S2 {T}. Arguments s3_t {T}. Arguments s3_r {T}.
Arguments s3_b1 {T}. Arguments s3_b2 {T}. Arguments s3_sigma1 {T}. Arguments s3_sigma2 {T}.
Arguments s3_rho {T}. Arguments s3_K {T}. Arguments s3_K2 {T}. Arguments s3_Q1 {T}. Arguments s3_Q2 {T}.
Arguments s3_option {T}. Arguments s3_otype {T}. Arguments s3_n {T}. Arguments s3_dt {T}. Arguments s3_mu1 {T}.
Arguments s3_mu2 {T}. Arguments s3_u {T}. Arguments s3_d {T}.

Section Spread3D.
Context {T : Type} {N : Num T}.
Local Open Scope num_scope.

(** bitree3d.py:135-157: the assignments of the constructor; lines 152-157 compute the cached values *)
Definition mk3D (S1 S2 t r b1 b2 sigma1 sigma2 rho : T) (K K2 : option T) (Q1 Q2 : T) (opt : Z) (otype : string) (n : nat)
  : Spread3D T :=
  let dt := t / ofnat n in
  let mu1 := b1 - lit (5#10) * sigma1 * sigma1 in
  let mu2 := b2 - lit (5#10) * sigma2 * sigma2 in
  attrs3D S1 S2 t r b1 b2 sigma1 sigma2 rho K K2 Q1 Q2 opt otype n dt mu1 mu2
    (expn (mu1 * dt + sigma1 * sqrn dt)) (expn (mu1 * dt - sigma1 * sqrn dt)).

(** bitree3d.py:135-157, BionomialSpreadAllTypes.__init__ *)
Definition AllTypes (S1 S2 t r b1 b2 sigma1 sigma2 rho : T) (K K2 : option T) (Q1 Q2 : T)
    (opt : Z) (otype : string) (n : nat) : res (Spread3D T) :=
  if Nat.eqb n 0 then Err ZeroDivisionError
  else Ok (mk3D S1 S2 t r b1 b2 sigma1 sigma2 rho K K2 Q1 Q2 opt otype n).

(** bitree3d.py:479-519, 613-653, 746-786: the three wrappers fix [option] to 2, 3, 1 and [K2] to None *)
Definition MaxOption (S1 S2 K t r b1 b2 sigma1 sigma2 rho Q1 Q2 : T) otype n : res (Spread3D T) :=
  if Nat.eqb n 0 then Err ZeroDivisionError
  else Ok (mk3D S1 S2 t r b1 b2 sigma1 sigma2 rho (Some K) None Q1 Q2 2 otype n).
Definition MinOption (S1 S2 K t r b1 b2 sigma1 sigma2 rho Q1 Q2 : T) otype n : res (Spread3D T) :=
  if Nat.eqb n 0 then Err ZeroDivisionError
  else Ok (mk3D S1 S2 t r b1 b2 sigma1 sigma2 rho (Some K) None Q1 Q2 3 otype n).
Definition SpreadOption (S1 S2 K t r b1 b2 sigma1 sigma2 rho Q1 Q2 : T) otype n : res (Spread3D T) :=
  if Nat.eqb n 0 then Err ZeroDivisionError
  else Ok (mk3D S1 S2 t r b1 b2 sigma1 sigma2 rho (Some K) None Q1 Q2 1 otype n).

(** [x - K] with a possibly missing strike *)
Definition minus_strike (x : T) (K : option T) : res T :=
  match K with Some k => Ok (x - k) | None => Err TypeError end.
Definition strike_minus (K : option T) (x : T) : res T :=
  match K with Some k => Ok (k - x) | None => Err TypeError end.

(** bitree3d.py:201-224, _payoff.  An unknown code returns None, which numpy refuses to store in a
    float matrix (TypeError). *)
Definition s3_payoff (opt z : Z) (S1 S2 Q1 Q2 : T) (K K2 : option T) : res T :=
  match opt with
  | 1%Z => x <- minus_strike (Q1 * S1 - Q2 * S2) K ;; Ok (maxn (ofZ 0) (ofZ z * x))
  | 2%Z => x <- minus_strike (maxn (Q1 * S1) (Q2 * S2)) K ;; Ok (maxn (ofZ 0) (ofZ z * x))
  | 3%Z => x <- minus_strike (minn (Q1 * S1) (Q2 * S2)) K ;; Ok (maxn (ofZ 0) (ofZ z * x))
  | 4%Z => x1 <- minus_strike (Q1 * S1) K ;; x2 <- minus_strike (Q2 * S2) K2 ;;
           Ok (maxn (maxn (ofZ 0) (ofZ z * x1)) (maxn (ofZ 0) (ofZ z * x2)))
  | 5%Z => x1 <- minus_strike (Q1 * S1) K ;; x2 <- strike_minus K2 (Q2 * S2) ;;
           Ok (maxn (maxn (ofZ 0) (ofZ z * x1)) (maxn (ofZ 0) (ofZ z * x2)))
  | 6%Z => x <- minus_strike (Q1 * S1 + Q2 * S2) K ;; Ok (maxn (ofZ 0) (ofZ z * x))
  | 7%Z => Ok (maxn (ofZ 0) (ofZ z * (Q2 * S2 - Q1 * S1)))
  | 8%Z => x <- minus_strike (Q1 * S1 / Q2 * S2) K ;; Ok (maxn (ofZ 0) (ofZ z * x))
  | 9%Z => x <- minus_strike (Q1 * S1 * Q2 * S2) K ;; Ok (maxn (ofZ 0) (ofZ z * x))
  | _ => Err TypeError
  end.

(** bitree3d.py:167-168 and 180-181: asset 1 after m steps at node j *)
Definition s3_node1 (o : Spread3D T) (m j : nat) : T := s3_S1 o * s3_u o ^ j * s3_d o ^ (m - j).
(** bitree3d.py:167, 171-172 and 179, 183-184: asset 2 after m steps at node (j, i) *)
Definition s3_node2 (o : Spread3D T) (m j i : nat) : T :=
  let dt := s3_dt o in
  let Y1 := ofZ (2 * Z.of_nat j - Z.of_nat m) * sqrn dt in
  s3_S2 o * expn (s3_mu2 o * ofnat m * dt)
    * expn (s3_sigma2 o * (s3_rho o * Y1
              + sqrn (ofZ 1 - s3_rho o ^ 2) * ofZ (2 * Z.of_nat i - Z.of_nat m) * sqrn dt)).
Definition s3_node_payoff (o : Spread3D T) (z : Z) (m j i : nat) : res T :=
  s3_payoff (s3_option o) z (s3_node1 o m j) (s3_node2 o m j i) (s3_Q1 o) (s3_Q2 o) (s3_K o) (s3_K2 o).

(** bitree3d.py:166-173: fill the terminal payoffs *)
Definition s3_fill_inner (o : Spread3D T) (z : Z) (n j i : nat) (m : list (list T)) : res (list (list T)) :=
  v <- s3_node_payoff o z n j i ;; mupd m j i v.
Definition s3_fill (o : Spread3D T) (z : Z) (n : nat) (m : list (list T)) : res (list (list T)) :=
  for_ (seq 0 (n + 1)) (fun j m => for_ (seq 0 (n + 1)) (fun i m => s3_fill_inner o z n j i m) m) m.

(** bitree3d.py:182-195: one node of the backward sweep, in place *)
Definition s3_step (o : Spread3D T) (z : Z) (otype : string) (m j i : nat) (ov : list (list T))
  : res (list (list T)) :=
  a <- mget ov j i ;;
  b <- mget ov (j + 1) i ;;
  c <- mget ov j (i + 1) ;;
  e <- mget ov (j + 1) (i + 1) ;;
  let v := lit (25#100) * (a + b + c + e) * expn (- s3_r o * s3_dt o) in
  ov <- mupd ov j i v ;;
  if String.eqb otype "american" then
    v <- mget ov j i ;;
    x <- s3_node_payoff o z m j i ;;
    mupd ov j i (maxn v x)
  else Ok ov.
Definition s3_sweep_row (o : Spread3D T) (z : Z) (otype : string) (m j : nat) (ov : list (list T)) :=
  for_ (seq 0 (m + 1)) (fun i ov => s3_step o z otype m j i ov) ov.
Definition s3_sweep_level (o : Spread3D T) (z : Z) (otype : string) (m : nat) (ov : list (list T)) :=
  for_ (seq 0 (m + 1)) (fun j ov => s3_sweep_row o z otype m j ov) ov.

(** bitree3d.py:161-199, _calc_price *)
Definition s3_calc_price (o : Spread3D T) (z : Z) (n : nat) (otype : string) (tree : bool) : res (tree_out T) :=
  let ov := repeat (repeat (ofZ 0) (n + 2)) (n + 2) in
  ov <- s3_fill o z n ov ;;
  ov <- for_ (rev (seq 0 n)) (fun m ov => s3_sweep_level o z otype m ov) ov ;;
  if tree then Ok (Matrix ov) else rmap Price (mget ov 0 0).

(** bitree3d.py:226-253 and 255-282 *)
Definition s3_call (o : Spread3D T) (tree : bool) : res (tree_out T) := s3_calc_price o 1 (s3_n o) (s3_otype o) tree.
Definition s3_put (o : Spread3D T) (tree : bool) : res (tree_out T) := s3_calc_price o (-1) (s3_n o) (s3_otype o) tree.
Definition s3_value (call tree : bool) (o : Spread3D T) : res (tree_out T) :=
  if call then s3_call o tree else s3_put o tree.

(** A user's call of the API: build a BionomialSpreadAllTypes option and price it (call or put). *)
Definition all_types (call tree : bool) (code : Z) (S1 S2 t r b1 b2 sigma1 sigma2 rho : T) (K K2 : option T)
    (Q1 Q2 : T) (otype : string) (n : nat) : res (tree_out T) :=
  o <- AllTypes S1 S2 t r b1 b2 sigma1 sigma2 rho K K2 Q1 Q2 code otype n ;; s3_value call tree o.
End Spread3D.

(** Attributes of SpreadApproxOption (Kirk), spreadapprox.py:93-121. *)
Record Kirk (T : Type) := mkKirk {
  k_S1 : T; k_S2 : T; k_K : T; k_t : T; k_r : T; k_b1 : T; k_b2 : T; k_sigma1 : T; k_sigma2 : T;
  k_rho : T; k_Q1 : T; k_Q2 : T; k_e1 : T; k_e2 : T; k_S : T; k_sigma : T; k_d1 : T; k_d2 : T }.
Arguments mkKirk {T}. Arguments k_S1 {T}. Arguments k_S2 {T}. Arguments k_K {T}. Arguments k_t {T}.
Arguments k_r {T}. Arguments k_b1 {T}. Arguments k_b2 {T}. Arguments k_sigma1 {T}. Arguments k_sigma2 {T}.
Arguments k_rho {T}. Arguments k_Q1 {T}. Arguments k_Q2 {T}. Arguments k_e1 {T}. Arguments k_e2 {T}.
Arguments k_S {T}. Arguments k_sigma {T}. Arguments k_d1 {T}. Arguments k_d2 {T}.

Section Kirk.
Context {T : Type} {N : Num T}.
Local Open Scope num_scope.

(** spreadapprox.py:78-121, __init__ *)
Definition KirkOption (S1 S2 K t r b1 b2 sigma1 sigma2 rho Q1 Q2 : T) : Kirk T :=
  let e1 := expn ((b1 - r) * t) in
  let e2 := expn ((b2 - r) * t) in
  let S := (Q1 * S1 * e1) / (Q2 * S2 * e2 + K * expn (- r * t)) in
  let F := (Q2 * S2 * e2) / (Q2 * S2 * e2 + K * expn (- r * t)) in
  let sigma := sqrn (sigma1 ^ 2 + (sigma2 * F) ^ 2 - ofZ 2 * rho * sigma1 * sigma2 * F) in
  let d1 := (logn S + lit (5#10) * sigma ^ 2 * t) / (sigma * sqrn t) in
  let d2 := d1 - sigma * sqrn t in
  mkKirk S1 S2 K t r b1 b2 sigma1 sigma2 rho Q1 Q2 e1 e2 S sigma d1 d2.

(** spreadapprox.py:144-148, call *)
Definition kirk_call (o : Kirk T) : T :=
  (k_Q2 o * k_S2 o * k_e2 o + k_K o * expn (- k_r o * k_t o))
  * (k_S o * cnd (k_d1 o) - cnd (k_d2 o)).
(** spreadapprox.py:169-173, put *)
Definition kirk_put (o : Kirk T) : T :=
  (k_Q2 o * k_S2 o * k_e2 o + k_K o * expn (- k_r o * k_t o))
  * (- k_S o * cnd (- k_d1 o) + cnd (- k_d2 o)).
End Kirk.

(** Attributes of TrinomialSpreadOption, tree_spread.py:8-32 (the [type] is stored but never used). *)
Record TriSpread (T : Type) := mkTS {
  ts_S1 : T; ts_S2 : T; ts_K : T; ts_t : T; ts_r : T; ts_b : T; ts_sigma1 : T; ts_sigma2 : T;
  ts_rho : T; ts_type : string; ts_n : nat }.
Arguments mkTS {T}. Arguments ts_S1 {T}. Arguments ts_S2 {T}. Arguments ts_K {T}. Arguments ts_t {T}.
Arguments ts_r {T}. Arguments ts_b {T}. Arguments ts_sigma1 {T}. Arguments ts_sigma2 {T}.
Arguments ts_rho {T}. Arguments ts_type {T}. Arguments ts_n {T}.

(** list comprehension with possible failure *)
Fixpoint mapM {A B} (f : A -> res B) (l : list A) : res (list B) :=
  match l with
  | [] => Ok []
  | x :: l' => y <- f x ;; ys <- mapM f l' ;; Ok (y :: ys)
  end.

Section TriSpread.
Context {T : Type} {N : Num T}.
Local Open Scope num_scope.

(** tree_spread.py:112-128, _get_gauss: entry (row i, column j) of OptionValue2 * OptionValue1 *)
Definition ts_gauss (h v : T) (n : nat) (i j : nat) : T :=
  (v ^ (2 * n - i) * (ofZ 1 / v) ^ i) * (h ^ j * (ofZ 1 / h) ^ (2 * n - j)).

(** tree_spread.py:49-53, the weights pm *)
Definition ts_pm (a b : nat) : T :=
  ofZ (if Nat.eqb a 1 then (if Nat.eqb b 1 then 16 else 4) else (if Nat.eqb b 1 then 4 else 1))%Z / ofZ 36.

(** tree_spread.py:73, 108: sum of the 3x3 window of [m] with upper left corner (i, j), weighted, times Df *)
Definition ts_window (m : list (list T)) (Df : T) (i j : nat) : res T :=
  s <- for_ (list_prod (seq 0 3) (seq 0 3)) (fun ab s =>
         x <- mget m (i + fst ab) (j + snd ab) ;; Ok (s + x * ts_pm (fst ab) (snd ab))) (ofZ 0) ;;
  Ok (s * Df).

(** tree_spread.py:102-109, _calc_nodes: every entry of the smaller matrix is written exactly once, so
    the two loops are modelled as a comprehension over the rows and columns 1 .. shape-2 of [tr] *)
Definition ts_calc_nodes (tr : list (list T)) (Df : T) : res (list (list T)) :=
  mapM (fun i => mapM (fun j => ts_window tr Df (i - 1) (j - 1)) (seq 1 (List.length tr - 2)))
       (seq 1 (List.length tr - 2)).

(** numpy.pad(m, (j, j)) of a square matrix *)
Definition ts_pad (m : list (list T)) (j : nat) : list (list T) :=
  let w := (List.length m + 2 * j)%nat in
  repeat (repeat (ofZ 0) w) j ++ map (fun row => repeat (ofZ 0) j ++ row ++ repeat (ofZ 0) j) m
  ++ repeat (repeat (ofZ 0) w) j.

(** tree_spread.py:81-100, _euro: the loop state is (old, tr) *)
Definition ts_euro (OptionValue : list (list T)) (n : nat) (Df : T) : res (list (list (list T))) :=
  st <- for_ (seq 1 (n - 1)) (fun j st =>
          let '(old, tr) := st in
          latest <- ts_calc_nodes old Df ;;
          Ok (latest, tr ++ [ts_pad latest j])) (OptionValue, []) ;;
  Ok (snd st).

Definition ts_sdp (o : TriSpread T) : T := ts_sigma1 o * ts_sigma1 o + ts_sigma2 o * ts_sigma2 o.
Definition ts_root (o : TriSpread T) : T :=
  sqrn (ts_sdp o * ts_sdp o
        - ofZ 4 * (ofZ 1 - ts_rho o * ts_rho o) * ts_sigma1 o * ts_sigma1 o * ts_sigma2 o * ts_sigma2 o).
Definition ts_lam1 (o : TriSpread T) : T := lit (5#10) * (ts_sdp o + ts_root o).
Definition ts_lam2 (o : TriSpread T) : T := lit (5#10) * (ts_sdp o - ts_root o).
Definition ts_the (o : TriSpread T) : T :=
  atn ((ts_lam1 o - ts_sigma1 o * ts_sigma1 o) / (ts_rho o * ts_sigma1 o * ts_sigma2 o)).
Definition ts_dt (o : TriSpread T) : T := ts_t o / ofnat (ts_n o).
(** tree_spread.py:60 *)
Definition ts_Df (o : TriSpread T) : T := expn (ts_b o - ts_r o * ts_dt o).
(** tree_spread.py:61-69 *)
Definition ts_h1 (o : TriSpread T) : T :=
  expn (ofZ (-1) * sinn (ts_the o) * sqrn (ts_lam2 o) * sqrn (ofZ 3 * ts_dt o)
        - lit (5#10) * ts_sigma1 o * ts_sigma1 o * ts_dt o).
Definition ts_v1 (o : TriSpread T) : T :=
  expn (cosn (ts_the o) * sqrn (ts_lam1 o) * sqrn (ofZ 3 * ts_dt o)
        - lit (5#10) * ts_sigma1 o * ts_sigma1 o * ts_dt o).
Definition ts_h2 (o : TriSpread T) : T :=
  expn (cosn (ts_the o) * sqrn (ts_lam2 o) * sqrn (ofZ 3 * ts_dt o)
        - lit (5#10) * ts_sigma2 o * ts_sigma2 o * ts_dt o).
Definition ts_v2 (o : TriSpread T) : T :=
  expn (sinn (ts_the o) * sqrn (ts_lam1 o) * sqrn (ofZ 3 * ts_dt o)
        - lit (5#10) * ts_sigma2 o * ts_sigma2 o * ts_dt o).

(** tree_spread.py:64, 69, 71: terminal payoffs *)
Definition ts_payoff (o : TriSpread T) (z : Z) (i j : nat) : T :=
  maxn (ofZ 0) ((ts_S1 o * ts_gauss (ts_h1 o) (ts_v1 o) (ts_n o) i j
                 - ts_S2 o * ts_gauss (ts_h2 o) (ts_v2 o) (ts_n o) i j - ts_K o) * ofZ z).

(** tree_spread.py:37-77, _calc_price.  [OptionValue[-1]] of an empty list raises IndexError. *)
Definition ts_calc_price (o : TriSpread T) (z : Z) : res T :=
  let n := ts_n o in
  if Nat.eqb n 0 then Err ZeroDivisionError else
  let ov := map (fun i => map (ts_payoff o z i) (seq 0 (2 * n + 1))) (seq 0 (2 * n + 1)) in
  tr <- ts_euro ov n (ts_Df o) ;;
  last <- of_opt IndexError (nth_error (rev tr) 0) ;;
  ts_window last (ts_Df o) (n - 1) (n - 1).

(** tree_spread.py:34-35 *)
Definition ts_call (o : TriSpread T) : res T := ts_calc_price o 1.
End TriSpread.

(** Model of the vanilla options when numpy arrays are passed as parameters (README.md:34-49).

    The code of vanillaoptions.py is the same for numbers and arrays: numpy's operators work element by element and
    broadcast.  So the model is the one of MVanilla.v, read over [arr E]: scalars or one-dimensional arrays of [E].
    Only truth tests of arrays need functions of their own. *)
From Coq Require Import Reals QArith ZArith List Bool Arith.
From Verif Require Import Num Py MBase MVanilla MSpread.
Import ListNotations.
Open Scope num_scope.

(** a number, a one-dimensional array, or the ValueError of a failed broadcast *)
Inductive arr (E : Type) := Sc (x : E) | Ve (l : list E) | Bad.
Arguments Sc {E}. Arguments Ve {E}. Arguments Bad {E}.

Section Vector.
Context {E : Type} `{Num E}.

Definition map1 (f : E -> E) (a : arr E) : arr E :=
  match a with Sc x => Sc (f x) | Ve l => Ve (map f l) | Bad => Bad end.
Definition zip (f : E -> E -> E) (l l' : list E) : list E := map (fun p => f (fst p) (snd p)) (combine l l').
(** numpy's broadcasting of two one-dimensional arrays *)
Definition bcast (f : E -> E -> E) (l l' : list E) : arr E :=
  if Nat.eqb (length l) (length l') then Ve (zip f l l')
  else match l, l' with
       | [x], _ => Ve (map (f x) l')
       | _, [y] => Ve (map (fun x => f x y) l)
       | _, _ => Bad
       end.
Definition map2 (f : E -> E -> E) (a b : arr E) : arr E :=
  match a, b with
  | Bad, _ | _, Bad => Bad
  | Sc x, Sc y => Sc (f x y)
  | Sc x, Ve l => Ve (map (f x) l)
  | Ve l, Sc y => Ve (map (fun x => f x y) l)
  | Ve l, Ve l' => bcast f l l'
  end.
(** The truth value of a comparison of arrays is [truth] below; the comparison operators of this instance are
    right for numbers only and are not used on arrays. *)
Definition cmp (f : E -> E -> bool) (a b : arr E) : bool := match a, b with Sc x, Sc y => f x y | _, _ => false end.

#[export] Instance ArrNum : Num (arr E) := {
  lit q := Sc (lit q); ofZ z := Sc (ofZ z);
  add := map2 add; sub := map2 sub; mul := map2 mul; div := map2 div; opp := map1 opp;
  absn := map1 absn; sgn := map1 sgn; expn := map1 expn; logn := map1 logn; sqrn := map1 sqrn;
  atn := map1 atn; sinn := map1 sinn; cosn := map1 cosn; pinum := Sc pinum;
  powi a k := map1 (fun x => powi x k) a; powr := map2 powr; maxn := map2 maxn; minn := map2 minn;
  ltb := cmp ltb; leb := cmp leb; eqb := cmp eqb
}.

(** the ValueError of a failed broadcast, raised *)
Definition raised (a : arr E) : res (arr E) := match a with Bad => Err ValueError | _ => Ok a end.
Definition run (r : res (arr E)) : res (arr E) := bind r raised.

(** vanillaoptions.py:60-78: [__init__]; the broadcasts happen in the computation of [_d1] and [_d2]. *)
Definition vGBSOption (S K t r b : arr E) (sigma : option (arr E)) : res (gbs (arr E)) :=
  let o := GBSOption S K t r b sigma in
  match g_d1 o, g_d2 o with
  | Some d1, Some d2 => bind (raised d1) (fun _ => bind (raised d2) (fun _ => Ok o))
  | _, _ => Ok o
  end.
(** vanillaoptions.py:561-563 *)
Definition vBlack76Option (FT K t r : arr E) (sigma : option (arr E)) : res (gbs (arr E)) :=
  vGBSOption FT K t r (lit 0) sigma.

(** vanillaoptions.py:104-136, 167-175, 204-236, 262-270, 357-377, 403-410, 437-451 on arrays *)
Definition vgbs_call (o : gbs (arr E)) := run (gbs_call o).
Definition vgbs_put (o : gbs (arr E)) := run (gbs_put o).
Definition vgbs_delta (call : bool) (o : gbs (arr E)) := run (gbs_delta call o).
Definition vgbs_theta (call : bool) (o : gbs (arr E)) := run (gbs_theta call o).
Definition vgbs_vega (o : gbs (arr E)) := run (gbs_vega o).
Definition vgbs_gamma (o : gbs (arr E)) := run (gbs_gamma o).
Definition vgbs_lamb (call : bool) (o : gbs (arr E)) :=
  with_d o (fun _ _ _ => bind (if call then vgbs_call o else vgbs_put o) (fun _ => run (gbs_lamb call o))).
Definition vgbs_cofc (call : bool) (o : gbs (arr E)) := run (gbs_cofc call o).

(** bool() of an array of booleans: ValueError for more than one element (an empty array is false) *)
Definition truth (f : E -> bool) (a : arr E) : res bool :=
  match a with
  | Sc x => Ok (f x)
  | Ve [] => Ok false
  | Ve [x] => Ok (f x)
  | _ => Err ValueError
  end.
(** vanillaoptions.py:299-324 [rho], method "analytic": the price, then [if self._b != 0] *)
Definition vgbs_rho (call : bool) (o : gbs (arr E)) : res (arr E) :=
  with_d o (fun _ _ d2 =>
    bind (if call then vgbs_call o else vgbs_put o) (fun price =>
    bind (truth (fun b => negb (b =? lit 0)) (g_b o)) (fun nz =>
    raised (if nz then if call then g_t o * g_K o * expn ((- g_r o) * g_t o) * cnd d2
                       else (- g_t o) * g_K o * expn ((- g_r o) * g_t o) * cnd (- d2)
            else (- g_t o) * price)))).
(** vanillaoptions.py:453-491 [greeks] *)
Definition vgbs_greeks (call : bool) (o : gbs (arr E)) : res (list (arr E)) :=
  bind (vgbs_delta call o) (fun de => bind (vgbs_theta call o) (fun th =>
  bind (vgbs_vega o) (fun ve => bind (vgbs_rho call o) (fun rh =>
  bind (vgbs_lamb call o) (fun la => bind (vgbs_gamma o) (fun ga =>
  bind (vgbs_cofc call o) (fun co => Ok [de; th; ve; rh; la; ga; co]))))))).

(** vanillaoptions.py:662-704, 733, 761: MiltersenSchwartzOption; [__init__] computes [_vz], [_vxz], [_d1], [_d2] *)
Definition vms_new (p : ms_params (arr E)) : res (ms_params (arr E)) :=
  bind (raised (ms_vz2 p)) (fun _ => bind (raised (ms_vxz p)) (fun _ =>
  bind (raised (ms_d1 p)) (fun _ => bind (raised (ms_d2 p)) (fun _ => Ok p)))).
Definition vms_call (p : ms_params (arr E)) : res (arr E) := raised (ms_call p).
Definition vms_put (p : ms_params (arr E)) : res (arr E) := raised (ms_put p).

(** ** Implied volatility *)
(** base.py:479-488 [_check_array]: some argument is an array of more than one element *)
Definition check_array (l : list (arr E)) : bool :=
  existsb (fun a => match a with Ve l => Nat.ltb 1 (length l) | _ => false end) l.
(** base.py:490-501 [_max_array]: the first of the largest arrays; [numpy.array([0])] to start with *)
Definition max_array (l : list (arr E)) : list E :=
  fold_left (fun m a => match a with Ve l => if Nat.ltb (length m) (length l) then l else m | _ => m end) l [lit 0].
(** base.py:503-512 [_func]: [copy] and [set_param("sigma", sigma)] rebuild the option *)
Definition vvol_func (o : gbs (arr E)) (call : bool) (price sigma : arr E) : res (arr E) :=
  bind (vGBSOption (g_S o) (g_K o) (g_t o) (g_r o) (g_b o) (Some sigma)) (fun temp =>
  bind (if call then vgbs_call temp else vgbs_put temp) (fun v => raised (price - v))).
(** base.py:514-577 [_volatility], verbose=False.  scipy's [root] (array branch) returns a point and whether it
    converged; the code takes [.x] without looking at the flag.  scipy's [root_scalar] (bracket -10, 10) raises
    when it does not converge.  Both are parameters. *)
Definition vgbs_volatility (root : (arr E -> res (arr E)) -> list E -> res (list E * bool))
    (root_scalar : (arr E -> res (arr E)) -> arr E -> arr E -> res (arr E))
    (o : gbs (arr E)) (price : arr E) (call : bool) : res (arr E) :=
  let params := [g_S o; g_K o; g_t o; g_r o; g_b o] ++ match g_sigma o with Some s => [s] | None => [] end in
  if check_array (price :: params) then
    let a := max_array (price :: params) in
    rmap (fun sol => Ve (fst sol)) (root (vvol_func o call price) (map (fun _ => lit 1) a))
  else root_scalar (vvol_func o call price) (lit (-10)) (lit 10).

(** ** SpreadApproxOption (Kirk) on arrays *)
(** spreadapprox.py:78-121: [__init__]; the attributes are computed one after the other *)
Definition vKirkOption (S1 S2 K t r b1 b2 sigma1 sigma2 rho Q1 Q2 : arr E) : res (Kirk (arr E)) :=
  let o := KirkOption S1 S2 K t r b1 b2 sigma1 sigma2 rho Q1 Q2 in
  bind (raised (k_e1 o)) (fun _ => bind (raised (k_e2 o)) (fun _ => bind (raised (k_S o)) (fun _ =>
  bind (raised (k_sigma o)) (fun _ => bind (raised (k_d1 o)) (fun _ => bind (raised (k_d2 o)) (fun _ => Ok o)))))).
(** spreadapprox.py:144-148, 169-173 *)
Definition vkirk_call (o : Kirk (arr E)) : res (arr E) := raised (kirk_call o).
Definition vkirk_put (o : Kirk (arr E)) : res (arr E) := raised (kirk_put o).

(** ** American approximations reject arrays *)
(** basic_american_options/__init__.py:74-75, 396-397, 704-705: the guard at the start of the three [__init__];
    [args] are the constructor's arguments, an omitted sigma left out *)
Definition american_guard (args : list (arr E)) : res unit := if check_array args then Err TypeError else Ok tt.

End Vector.

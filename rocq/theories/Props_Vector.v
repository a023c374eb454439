(** Property theorems C57-C58 (arrays of vanilla options). *)
From Coq Require Import Reals QArith ZArith List Bool Arith Lia Lra.
From Verif Require Import Num Py MBase MVanilla MSpread MVector SVector PVector PVector2 PVector3 XVector.
Import ListNotations.
Local Open Scope nat_scope.

(* ---------------------------------------------------------------- C57 *)
(** Passing arrays prices many options at once: if every parameter is a number, an array of length 1 or an array of length n, then construction succeeds and call, put, delta, theta, vega, lambda, gamma and the cost-of-carry Greek return a number or an array of the common length whose element i is what an option built from the i-th elements alone returns (for every arithmetic, in particular for floats) *)
Theorem C57_elementwise : forall (E : Type) (NE : Num E) (n : nat) (S K t r b sigma : arr E),
  fits n S -> fits n K -> fits n t -> fits n r -> fits n b -> fits n sigma ->
  exists o, vGBSOption S K t r b (Some sigma) = Ok o /\ forall q, exists v, vask q o = Ok v /\ fits n v /\ len v = joint [S; K; t; r; b; sigma] /\
    forall i s k t' r' b' sg, i < n ->
      item i S = Some s -> item i K = Some k -> item i t = Some t' -> item i r = Some r' -> item i b = Some b' -> item i sigma = Some sg ->
      exists x, item i v = Some x /\ ask q (GBSOption s k t' r' b' (Some sg)) = Ok x.
Proof. exact vec_elementwise. Qed.
Print Assumptions C57_elementwise.
Example C57_elementwise_case := C57_elementwise R _ 3 (Ve [90; 100; 110]%R) (Sc 100%R) (Ve [1%R]) (Sc (1/10)%R) (Ve [0; 1/20; 1/10]%R) (Sc (1/5)%R)
  (or_introl eq_refl) Coq.Init.Logic.I (or_intror eq_refl) Coq.Init.Logic.I (or_introl eq_refl) Coq.Init.Logic.I.

(** For a cost of carry b that is the same for all (a number or an array of length 1; in particular for Black76Option) rho() and the dictionary greeks() are element by element what the scalar options return, in the same order *)
Theorem C57_greeks : forall (E : Type) (NE : Num E) (n : nat) (S K t r b sigma : arr E) (call : bool), n <> 0 ->
  fits n S -> fits n K -> fits n t -> fits n r -> fits n b -> fits n sigma -> (forall k, len b = Some k -> k = 1) ->
  exists o rho vs, vGBSOption S K t r b (Some sigma) = Ok o /\ vgbs_rho call o = Ok rho /\ len rho = joint [S; K; t; r; b; sigma] /\
    vgbs_greeks call o = Ok vs /\ Forall (fun v => len v = joint [S; K; t; r; b; sigma]) vs /\
    forall i s k t' r' b' sg, i < n ->
      item i S = Some s -> item i K = Some k -> item i t = Some t' -> item i r = Some r' -> item i b = Some b' -> item i sigma = Some sg ->
      let o' := GBSOption s k t' r' b' (Some sg) in
      (exists x, item i rho = Some x /\ gbs_rho call o' = Ok x) /\ exists xs, gbs_greeks call o' = Ok xs /\ Forall2 (fun v x => item i v = Some x) vs xs.
Proof. exact vec_greeks. Qed.
Print Assumptions C57_greeks.
Example C57_greeks_case := C57_greeks R _ 3 (Ve [90; 100; 110]%R) (Sc 100%R) (Ve [1%R]) (Sc (1/10)%R) (Sc (1/20)%R) (Ve [1/5; 1/4; 1/3]%R) true
  ltac:(discriminate) (or_introl eq_refl) Coq.Init.Logic.I (or_intror eq_refl) Coq.Init.Logic.I Coq.Init.Logic.I (or_introl eq_refl) ltac:(intros k E; discriminate).

(** greeks for arrays are documented for all parameters, but with an array of two or more costs of carry b, rho() and greeks() always raise ValueError (the test b != 0 has no truth value), whatever the other parameters *)
Theorem C57_rho_refuted : forall (E : Type) (NE : Num E) (S K t r sigma : arr E) (l : list E) (call : bool) o, 2 <= length l ->
  vGBSOption S K t r (Ve l) (Some sigma) = Ok o ->
  vgbs_rho call o = Err ValueError /\ vgbs_greeks call o = Err ValueError.
Proof. exact vec_rho_fails. Qed.
Print Assumptions C57_rho_refuted.
Example C57_rho_refuted_case := C57_rho_refuted R _ (Ve [90; 100; 110]%R) (Sc 100%R) (Sc 1%R) (Sc (1/10)%R) (Sc (1/5)%R) [0; 1/20; 1/10]%R true _ ltac:(cbn; lia) eq_refl.

(** Two parameters of lengths that do not match (different, neither of them 1) are never silently combined: the constructor raises ValueError or, when only r is involved, the option is built and every price and Greek raises ValueError *)
Theorem C57_mismatch : forall (E : Type) (NE : Num E) (S K t r b sigma x y : arr E),
  In x [S; K; t; r; b; sigma] -> In y [S; K; t; r; b; sigma] -> clash x y ->
  vGBSOption S K t r b (Some sigma) = Err ValueError \/
  exists o, vGBSOption S K t r b (Some sigma) = Ok o /\ (forall q, vask q o = Err ValueError) /\ forall call, vgbs_rho call o = Err ValueError.
Proof. exact vec_mismatch. Qed.
Print Assumptions C57_mismatch.
Example C57_mismatch_case := C57_mismatch R _ (Ve [90; 100; 110]%R) (Sc 100%R) (Sc 1%R) (Ve [1/10; 1/20]%R) (Sc 0%R) (Sc (1/5)%R) (Ve [90; 100; 110]%R) (Ve [1/10; 1/20]%R)
  ltac:(left; reflexivity) ltac:(right; right; right; left; reflexivity) ltac:(exists 3, 2; repeat split; discriminate).

(** A MiltersenSchwartzOption on arrays that fit together is built, and its call and put prices have the common shape and are position by position the prices of the scalar options *)
Theorem C57_miltersen : forall (E : Type) (NE : Num E) (n : nat) (p : ms_params (arr E)), Forall (fits n) (ms_fields p) ->
  vms_new p = Ok p /\ exists c u, vms_call p = Ok c /\ vms_put p = Ok u /\ len c = joint (ms_fields p) /\ len u = joint (ms_fields p) /\
  forall i q, i < n -> Forall2 (fun a x => item i a = Some x) (ms_fields p) (ms_fields q) -> item i c = Some (ms_call q) /\ item i u = Some (ms_put q).
Proof. exact vec_miltersen. Qed.
Print Assumptions C57_miltersen.
Example C57_miltersen_case := C57_miltersen R _ 2 (mkMs (Sc (19/20)%R) (Ve [95; 105]%R) (Ve [80; 90]%R) (Sc (1/4)%R) (Ve [1/2; 1]%R) (Sc (1/4)%R) (Sc (1/4)%R)
  (Sc (1/100)%R) (Sc (4/5)%R) (Sc (1/10)%R) (Sc (1/10)%R) (Sc 1%R) (Sc (1/5)%R)) ltac:(repeat constructor).

(** A SpreadApproxOption on arrays that fit together is built, and its call and put prices have the common shape and are position by position the prices of the scalar options *)
Theorem C57_kirk : forall (E : Type) (NE : Num E) (n : nat) (S1 S2 K t r b1 b2 s1 s2 rho Q1 Q2 : arr E),
  let ins := [S1; S2; K; t; r; b1; b2; s1; s2; rho; Q1; Q2] in Forall (fits n) ins ->
  exists o c u, vKirkOption S1 S2 K t r b1 b2 s1 s2 rho Q1 Q2 = Ok o /\ vkirk_call o = Ok c /\ vkirk_put o = Ok u /\ len c = joint ins /\ len u = joint ins /\
  forall i x1 x2 k t' r' c1 c2 g1 g2 rh q1 q2, i < n -> Forall2 (fun a x => item i a = Some x) ins [x1; x2; k; t'; r'; c1; c2; g1; g2; rh; q1; q2] ->
    let o' := KirkOption x1 x2 k t' r' c1 c2 g1 g2 rh q1 q2 in item i c = Some (kirk_call o') /\ item i u = Some (kirk_put o').
Proof. exact vec_kirk. Qed.
Print Assumptions C57_kirk.
Example C57_kirk_case := C57_kirk R _ 2 (Ve [122; 130]%R) (Sc 120%R) (Sc 3%R) (Ve [1/10; 1/2]%R) (Sc (1/10)%R) (Sc 0%R) (Ve [0%R]) (Sc (1/5)%R) (Sc (1/4)%R) (Sc (1/2)%R) (Sc 1%R) (Sc 1%R)
  ltac:(repeat (constructor; [cbn; auto|]); constructor).

(** Parameters of a SpreadApproxOption whose lengths do not match (different, neither of them 1) make the constructor raise ValueError *)
Theorem C57_kirk_mismatch : forall (E : Type) (NE : Num E) (S1 S2 K t r b1 b2 s1 s2 rho Q1 Q2 x y : arr E),
  let ins := [S1; S2; K; t; r; b1; b2; s1; s2; rho; Q1; Q2] in In x ins -> In y ins -> clash x y ->
  vKirkOption S1 S2 K t r b1 b2 s1 s2 rho Q1 Q2 = Err ValueError.
Proof. exact vec_kirk_mismatch. Qed.
Print Assumptions C57_kirk_mismatch.
Example C57_kirk_mismatch_case := C57_kirk_mismatch R _ (Ve [122; 130]%R) (Sc 120%R) (Sc 3%R) (Ve [1/10; 1/2; 1]%R) (Sc (1/10)%R) (Sc 0%R) (Ve [0%R]) (Sc (1/5)%R) (Sc (1/4)%R) (Sc (1/2)%R) (Sc 1%R) (Sc 1%R)
  (Ve [122; 130]%R) (Ve [1/10; 1/2; 1]%R) ltac:(left; reflexivity) ltac:(right; right; right; left; reflexivity) ltac:(exists 2, 3; repeat split; discriminate).

(** RollGeskeWhaleyOption, BAWAmericanApproxOption and BSAmericanApproxOption refuse arrays: the guard of their constructors raises TypeError if and only if some argument is an array of two or more elements *)
Theorem C57_american_rejects : forall (E : Type) (NE : Num E) (args : list (arr E)),
  american_guard args = Err TypeError <-> exists a k, In a args /\ len a = Some k /\ 2 <= k.
Proof. exact vec_american. Qed.
Print Assumptions C57_american_rejects.
Example C57_american_rejects_case : american_guard [Sc 100%R; Ve [95; 105]%R; Sc 1%R; Sc 0%R; Sc 0%R; Sc (1/5)%R] = Err TypeError /\ american_guard [Sc 100%R; Ve [95]%R; Sc 1%R] = Ok tt.
Proof. split; [apply (proj2 (C57_american_rejects R _ _)); exists (Ve [95; 105]%R); exists 2; cbn; auto|reflexivity]. Qed.

(** Black76Option on arrays: prices, every Greek, rho() and the dictionary greeks() are element by element what scalar Black76Options return *)
Theorem C57_black76 : forall (E : Type) (NE : Num E) (n : nat) (FT K t r sigma : arr E) (call : bool), n <> 0 ->
  fits n FT -> fits n K -> fits n t -> fits n r -> fits n sigma ->
  exists o rho vs, vBlack76Option FT K t r (Some sigma) = Ok o /\ vgbs_rho call o = Ok rho /\ len rho = joint [FT; K; t; r; sigma] /\
    vgbs_greeks call o = Ok vs /\ Forall (fun v => len v = joint [FT; K; t; r; sigma]) vs /\
    (forall q, exists v, vask q o = Ok v /\ fits n v /\ len v = joint [FT; K; t; r; sigma] /\
      forall i f k t' r' sg, i < n -> item i FT = Some f -> item i K = Some k -> item i t = Some t' -> item i r = Some r' -> item i sigma = Some sg ->
      exists x, item i v = Some x /\ ask q (Black76Option f k t' r' (Some sg)) = Ok x) /\
    forall i f k t' r' sg, i < n -> item i FT = Some f -> item i K = Some k -> item i t = Some t' -> item i r = Some r' -> item i sigma = Some sg ->
      let o' := Black76Option f k t' r' (Some sg) in
      (exists x, item i rho = Some x /\ gbs_rho call o' = Ok x) /\ exists xs, gbs_greeks call o' = Ok xs /\ Forall2 (fun v x => item i v = Some x) vs xs.
Proof. exact vec_black76. Qed.
Print Assumptions C57_black76.
Example C57_black76_case := C57_black76 R _ 3 (Ve [90; 100; 110]%R) (Sc 100%R) (Ve [1%R]) (Sc (1/10)%R) (Ve [1/5; 1/4; 1/3]%R) true
  ltac:(discriminate) (or_introl eq_refl) Coq.Init.Logic.I (or_intror eq_refl) Coq.Init.Logic.I (or_introl eq_refl).


(* ---------------------------------------------------------------- C58 *)
(** When some parameter or price is an array (of n elements), volatility() hands scipy's root one system of n equations in n volatilities, starting at all ones, whose i-th equation is "price i minus the price of option i at volatility i": the implied volatilities do not influence each other *)
Theorem C58_objective : forall (E : Type) (NE : Num E) (n : nat) (S K t r b price : arr E) (sigma : option (arr E)) (call : bool) root root_scalar, 2 <= n ->
  Forall (fits n) [S; K; t; r; b; price] -> fits_opt n sigma -> (exists a, In a ([S; K; t; r; b; price] ++ given sigma) /\ len a = Some n) ->
  exists F, vgbs_volatility root root_scalar (GBSOption S K t r b sigma) price call = rmap (fun sol => Ve (fst sol)) (root F (repeat (lit 1) n)) /\
    forall sig, length sig = n -> exists v, F (Ve sig) = Ok v /\ len v = Some n /\
      forall i s k t' r' b' p sg, i < n -> item i S = Some s -> item i K = Some k -> item i t = Some t' -> item i r = Some r' -> item i b = Some b' -> item i price = Some p ->
        nth_error sig i = Some sg -> exists x, ask (Price call) (GBSOption s k t' r' b' (Some sg)) = Ok x /\ item i v = Some (p - x)%num.
Proof. exact vol_objective. Qed.
Print Assumptions C58_objective.
Example C58_objective_case := C58_objective R _ 2 (Ve [90; 100]%R) (Sc 100%R) (Sc 1%R) (Sc (1/10)%R) (Sc 0%R) (Ve [4; 6]%R) None true
  (fun _ x0 => Ok (x0, false)) (fun _ a _ => Ok a) ltac:(lia) ltac:(repeat constructor) Coq.Init.Logic.I (ex_intro _ _ (conj (or_introl eq_refl) eq_refl)).

(** If root only ever returns exact solutions, every element of the returned volatilities gives the i-th option exactly its quoted price *)
Theorem C58_reprices : forall (n : nat) (S K t r b price : arr R) (sigma : option (arr R)) (call : bool) root root_scalar vol, (2 <= n)%nat ->
  Forall (fits n) [S; K; t; r; b; price] -> fits_opt n sigma -> (exists a, In a ([S; K; t; r; b; price] ++ given sigma) /\ len a = Some n) ->
  (forall f x0 l ok, root f x0 = Ok (l, ok) -> length l = length x0 /\ f (Ve l) = Ok (Ve (repeat 0%R (length x0)))) ->
  vgbs_volatility root root_scalar (GBSOption S K t r b sigma) price call = Ok vol ->
  len vol = Some n /\ forall i s k t' r' b' p, (i < n)%nat -> item i S = Some s -> item i K = Some k -> item i t = Some t' -> item i r = Some r' -> item i b = Some b' -> item i price = Some p ->
    exists sg, item i vol = Some sg /\ ask (Price call) (GBSOption s k t' r' b' (Some sg)) = Ok p.
Proof. exact vol_reprices. Qed.
Print Assumptions C58_reprices.
Example C58_reprices_case := C58_reprices 2 (Sc 100%R) (Sc 95%R) (Sc 1%R) (Sc (1/10)%R) (Sc 0%R) quotes None true (one_shot vols) (fun _ a _ => Ok a) (Ve vols) ltac:(lia)
  ltac:(destruct quotes_two as (a & b & ->); repeat constructor) Coq.Init.Logic.I
  ltac:(destruct quotes_two as (a & b & ->); exists (Ve [a; b]); split; [cbn; tauto|reflexivity]) (one_shot_sound vols) vol_found.

(** A returned implied volatility need not reprice the option: whatever root does (as long as it returns a point, converged or not), a quote at or above the forward value of the underlying, which no volatility can produce, still gets a volatility and no error - while for numbers the same call raises *)
Theorem C58_silent_refuted : forall (n : nat) (S K t r b price : arr R) (sigma : option (arr R)) root root_scalar i s k t' r' b' p, (2 <= n)%nat ->
  Forall (fits n) [S; K; t; r; b; price] -> fits_opt n sigma -> (exists a, In a ([S; K; t; r; b; price] ++ given sigma) /\ len a = Some n) ->
  (forall f x0, exists l ok, root f x0 = Ok (l, ok) /\ length l = length x0) ->
  (i < n)%nat -> item i S = Some s -> item i K = Some k -> item i t = Some t' -> item i r = Some r' -> item i b = Some b' -> item i price = Some p ->
  (0 < s)%R -> (0 < k)%R -> (s * exp ((b' - r') * t') <= p)%R ->
  exists vol sg x, vgbs_volatility root root_scalar (GBSOption S K t r b sigma) price true = Ok vol /\ len vol = Some n /\ item i vol = Some sg /\
    ask (Price true) (GBSOption s k t' r' b' (Some sg)) = Ok x /\ (x < p)%R.
Proof. exact vol_silent. Qed.
Print Assumptions C58_silent_refuted.
Example C58_silent_refuted_case := C58_silent_refuted 2 (Ve [90; 100]%R) (Sc 100%R) (Sc 1%R) (Sc (1/10)%R) (Sc (1/10)%R) (Ve [4; 101]%R) None
  (fun _ x0 => Ok (x0, false)) (fun _ a _ => Ok a) 1 _ _ _ _ _ _ ltac:(lia) ltac:(repeat constructor) Coq.Init.Logic.I (ex_intro _ _ (conj (or_introl eq_refl) eq_refl))
  ltac:(intros f x0; exists x0, false; split; reflexivity) ltac:(lia) eq_refl eq_refl eq_refl eq_refl eq_refl eq_refl
  ltac:(lra) ltac:(lra) ltac:(rewrite Rminus_diag_eq, Rmult_0_l, exp_0 by reflexivity; lra).


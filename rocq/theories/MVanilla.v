(** Model of vanillaoptions.py. *)
From Coq Require Import Reals QArith ZArith List Bool.
From Verif Require Import Num Py MBase.
Import ListNotations.
Open Scope num_scope.

Section Vanilla.
Context {T : Type} `{Num T}.

(* ------------------------------------------------------------------ *)
(** * GBSOption *)

(** Attributes of a GBSOption.  base.py:355-361 stores the six parameters;
    vanillaoptions.py:69-76 stores [_d1], [_d2] only when sigma is given. *)
Record gbs := mkGbs {
  g_S : T; g_K : T; g_t : T; g_r : T; g_b : T; g_sigma : option T;
  g_d1 : option T; g_d2 : option T
}.

(** vanillaoptions.py:70-73. *)
Definition gbs_d1 (S K t b sigma : T) : T :=
  (logn (S / K) + (b + sigma * sigma / lit 2) * t) / (sigma * sqrn t).

(** vanillaoptions.py:75. *)
Definition gbs_d2 (S K t b sigma : T) : T :=
  gbs_d1 S K t b sigma - sigma * sqrn t.

(** vanillaoptions.py:60-78 [__init__] for numbers with numpy semantics.  (With Python floats
    and K = 0 the division raises; that path is in MObjects.v.) *)
Definition GBSOption (S K t r b : T) (sigma : option T) : gbs :=
  match sigma with
  | Some s => mkGbs S K t r b (Some s) (Some (gbs_d1 S K t b s)) (Some (gbs_d2 S K t b s))
  | None => mkGbs S K t r b None None None
  end.

(** vanillaoptions.py:80-82 [_check_sigma] followed by reads of [_sigma], [_d1], [_d2]. *)
Definition with_d (o : gbs) {A} (k : T -> T -> T -> res A) : res A :=
  match g_sigma o with
  | None => Err ValueError
  | Some s =>
    match g_d1 o, g_d2 o with
    | Some d1, Some d2 => k s d1 d2
    | _, _ => Err AttributeError
    end
  end.

(** The methods below are parameterised by the distribution function [F] they call
    ([self._CND] in the code); the code's methods are the instances with [F := cnd]. *)
Section WithF.
Variable F : T -> T.

(** vanillaoptions.py:104-107. *)
Definition gbs_call_F (o : gbs) : res T :=
  with_d o (fun _ d1 d2 =>
    Ok (g_S o * expn ((g_b o - g_r o) * g_t o) * F d1
        - g_K o * expn ((- g_r o) * g_t o) * F d2)).

(** vanillaoptions.py:133-136. *)
Definition gbs_put_F (o : gbs) : res T :=
  with_d o (fun _ d1 d2 =>
    Ok (g_K o * expn ((- g_r o) * g_t o) * F (- d2)
        - g_S o * expn ((g_b o - g_r o) * g_t o) * F (- d1))).

(** vanillaoptions.py:167-175 [delta], method "analytic". *)
Definition gbs_delta_F (call : bool) (o : gbs) : res T :=
  with_d o (fun _ d1 _ =>
    Ok (if call then expn ((g_b o - g_r o) * g_t o) * F d1
        else expn ((g_b o - g_r o) * g_t o) * (F d1 - lit 1))).

(** vanillaoptions.py:204-236 [theta], method "analytic". *)
Definition gbs_theta_F (call : bool) (o : gbs) : res T :=
  with_d o (fun s d1 d2 =>
    let Theta1 :=
      (- (g_S o * expn ((g_b o - g_r o) * g_t o) * ndf d1 * s)) / (lit 2 * sqrn (g_t o)) in
    Ok (if call then
          Theta1 - (g_b o - g_r o) * g_S o * expn ((g_b o - g_r o) * g_t o) * F d1
          - g_r o * g_K o * expn ((- g_r o) * g_t o) * F d2
        else
          Theta1 + (g_b o - g_r o) * g_S o * expn ((g_b o - g_r o) * g_t o) * F (- d1)
          + g_r o * g_K o * expn ((- g_r o) * g_t o) * F (- d2))).

(** vanillaoptions.py:262-270 [vega], method "analytic". *)
Definition gbs_vega_F (o : gbs) : res T :=
  with_d o (fun _ d1 _ =>
    Ok (g_S o * expn ((g_b o - g_r o) * g_t o) * ndf d1 * sqrn (g_t o))).

(** vanillaoptions.py:299-324 [rho], method "analytic". *)
Definition gbs_rho_F (call : bool) (o : gbs) : res T :=
  with_d o (fun _ _ d2 =>
    if call then
      bind (gbs_call_F o) (fun price =>
        Ok (if negb (g_b o =? lit 0)
            then g_t o * g_K o * expn ((- g_r o) * g_t o) * F d2
            else (- g_t o) * price))
    else
      bind (gbs_put_F o) (fun price =>
        Ok (if negb (g_b o =? lit 0)
            then (- g_t o) * g_K o * expn ((- g_r o) * g_t o) * F (- d2)
            else (- g_t o) * price))).

(** vanillaoptions.py:357-377 [lamb], method "analytic". *)
Definition gbs_lamb_F (call : bool) (o : gbs) : res T :=
  with_d o (fun _ d1 _ =>
    if call then
      bind (gbs_call_F o) (fun price =>
        Ok (expn ((g_b o - g_r o) * g_t o) * F d1 * g_S o / price))
    else
      bind (gbs_put_F o) (fun price =>
        Ok (expn ((g_b o - g_r o) * g_t o) * (F d1 - lit 1) * g_S o / price))).

(** vanillaoptions.py:403-410 [gamma], method "analytic". *)
Definition gbs_gamma_F (o : gbs) : res T :=
  with_d o (fun s d1 _ =>
    Ok (expn ((g_b o - g_r o) * g_t o) * ndf d1 / (g_S o * s * sqrn (g_t o)))).

(** vanillaoptions.py:437-451 [c_of_c]. *)
Definition gbs_cofc_F (call : bool) (o : gbs) : res T :=
  with_d o (fun _ d1 _ =>
    Ok (if call then g_t o * g_S o * expn ((g_b o - g_r o) * g_t o) * F d1
        else (- g_t o) * g_S o * expn ((g_b o - g_r o) * g_t o) * F (- d1))).

End WithF.

Definition gbs_call := gbs_call_F cnd.
Definition gbs_put := gbs_put_F cnd.
Definition gbs_delta := gbs_delta_F cnd.
Definition gbs_theta := gbs_theta_F cnd.
Definition gbs_vega := gbs_vega_F.
Definition gbs_rho := gbs_rho_F cnd.
Definition gbs_lamb := gbs_lamb_F cnd.
Definition gbs_gamma := gbs_gamma_F.
Definition gbs_cofc := gbs_cofc_F cnd.

(** vanillaoptions.py:453-491 [greeks]: the dictionary, in insertion order
    (delta, theta, vega, rho, lambda, gamma, CofC). *)
Definition gbs_greeks (call : bool) (o : gbs) : res (list T) :=
  bind (gbs_delta call o) (fun de => bind (gbs_theta call o) (fun th =>
  bind (gbs_vega o) (fun ve => bind (gbs_rho call o) (fun rh =>
  bind (gbs_lamb call o) (fun la => bind (gbs_gamma o) (fun ga =>
  bind (gbs_cofc call o) (fun co => Ok [de; th; ve; rh; la; ga; co]))))))).

(* ------------------------------------------------------------------ *)
(** * Implied volatility *)

(** base.py:503-512 [_func]: the objective handed to the root finder.  [copy] and
    [set_param("sigma", sigma)] rebuild the option from its parameters (proved in PObjects.v). *)
Definition vol_func (o : gbs) (call : bool) (price sigma : T) : res T :=
  let temp := GBSOption (g_S o) (g_K o) (g_t o) (g_r o) (g_b o) (Some sigma) in
  bind ((if call then gbs_call else gbs_put) temp) (fun v => Ok (price - v)).

(** base.py:514-577 [_volatility], scalar branch with verbose=False.  scipy's [root_scalar] with
    bracket [-10,10] (lines 569-575) is the parameter [solver]; the warning at 545-546 has no
    effect on the result.  The array branch (scipy [root], lines 549-555) is in MVector.v. *)
Definition gbs_volatility (solver : (T -> res T) -> T -> T -> res T)
    (o : gbs) (price : T) (call : bool) : res T :=
  solver (vol_func o call price) (lit (-10)) (lit 10).

(* ------------------------------------------------------------------ *)
(** * Black76Option *)

(** vanillaoptions.py:561-563: GBS with [b=0]. *)
Definition Black76Option (FT K t r : T) (sigma : option T) : gbs :=
  GBSOption FT K t r (lit 0) sigma.

(* ------------------------------------------------------------------ *)
(** * MiltersenSchwartzOption *)

(** vanillaoptions.py:662-674 parameters. *)
Record ms_params := mkMs {
  m_Pt : T; m_FT : T; m_K : T; m_t : T; m_T : T;
  m_sS : T; m_sE : T; m_sF : T; m_rSE : T; m_rSF : T; m_rEF : T; m_kE : T; m_kF : T
}.

(** vanillaoptions.py:677-690: the value of [_vz] before the square root at line 701. *)
Definition ms_vz2 (p : ms_params) : T :=
  let '(mkMs _ _ _ t T sS sE sF rSE rSF rEF kE kF) := p in
  sS ^ 2 * t + lit 2 * sS * (sF * rSF * lit 1 / kF * (t - lit 1 / kF *
    expn ((- kF) * T) * (expn (kF * t) - lit 1)) - sE * rSE * lit 1 / kE *
    (t - lit 1 / kE * expn ((- kE) * T) * (expn (kE * t) - lit 1))) + sE ^ 2 *
    lit 1 / kE ^ 2 * (t + lit 1 / (lit 2 * kE) * expn (lit (-2) * kE * T) * (expn (lit 2 * kE * t) -
    lit 1) - lit 2 * lit 1 / kE * expn ((- kE) * T) * (expn (kE * t) - lit 1)) + sF ^ 2 *
    lit 1 / kF ^ 2 * (t + lit 1 / (lit 2 * kF) * expn (lit (-2) * kF * T) * (expn (lit 2 * kF * t) -
    lit 1) - lit 2 * lit 1 / kF * expn ((- kF) * T) * (expn (kF * t) - lit 1)) - lit 2 * sE *
    sF * rEF * lit 1 / kE * lit 1 / kF * (t - lit 1 / kE * expn ((- kE) * T) *
    (expn (kE * t) - lit 1) - lit 1 / kF * expn ((- kF) * T) * (expn (kF * t) -
    lit 1) + lit 1 / (kE + kF) * expn ((- (kE + kF)) * T) * (expn ((kE + kF) *
    t) - lit 1)).

(** vanillaoptions.py:691-699. *)
Definition ms_vxz (p : ms_params) : T :=
  let '(mkMs _ _ _ t T sS sE sF rSE rSF rEF kE kF) := p in
  sF * lit 1 / kF * (sS * rSF * (t - lit 1 / kF * (lit 1 - expn ((- kF) *
    t))) + sF * lit 1 / kF * (t - lit 1 / kF * expn ((- kF) * T) * (expn (kF *
    t) - lit 1) - lit 1 / kF * (lit 1 - expn ((- kF) * t)) + lit 1 / (lit 2 * kF) * expn ((- kF) *
    T) * (expn (kF * t) - expn ((- kF) * t))) - sE * rEF * lit 1 / kE *
    (t - lit 1 / kE * expn ((- kE) * T) * (expn (kE * t) - lit 1) - lit 1 / kF * (lit 1 -
    expn ((- kF) * t)) + lit 1 / (kE + kF) * expn ((- kE) * T) *
    (expn (kE * t) - expn ((- kF) * t)))).

(** vanillaoptions.py:701. *)
Definition ms_vz (p : ms_params) : T := sqrn (ms_vz2 p).

(** vanillaoptions.py:703-704. *)
Definition ms_d1 (p : ms_params) : T :=
  (logn (m_FT p / m_K p) - ms_vxz p + ms_vz p ^ 2 / lit 2) / ms_vz p.
Definition ms_d2 (p : ms_params) : T :=
  (logn (m_FT p / m_K p) - ms_vxz p - ms_vz p ^ 2 / lit 2) / ms_vz p.

(** vanillaoptions.py:733 and 761. *)
Definition ms_call (p : ms_params) : T :=
  m_Pt p * (m_FT p * expn (- ms_vxz p) * cnd (ms_d1 p) - m_K p * cnd (ms_d2 p)).
Definition ms_put (p : ms_params) : T :=
  m_Pt p * (m_K p * cnd (- ms_d2 p) - m_FT p * expn (- ms_vxz p) * cnd (- ms_d1 p)).

End Vanilla.
Arguments gbs : clear implicits.
Arguments ms_params : clear implicits.

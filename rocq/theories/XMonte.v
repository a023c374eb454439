(** Concrete instances for the examples beside the Monte Carlo theorems. *)
From Coq Require Import Reals ZArith QArith Qreals List Bool Lra Lia.
From Verif Require Import Num Py MBase MAmerican MMonte SMonte PMonte PMonte2 PMonte3 PMonte4 PMonteX.
Import ListNotations.
Open Scope R_scope.

(** two paths of two steps; the sampler shifts the draw by the number of the draw *)
Definition draw_k (k : nat) : list (list R) := [[1/2 + INR k; -1]; [1/4; 3/2]].
Definition sampler (p l : nat) (k : nat) : res (matrix R * nat) := Ok (draw_k k, Datatypes.S k).
Lemma draws2 : draws (sampler 2 2) 2 0%nat = Ok ([draw_k 0; draw_k 1], 2%nat). Proof. reflexivity. Qed.
Lemma shaped2 : Forall (shaped 2) [draw_k 0; draw_k 1].
Proof. repeat constructor; discriminate. Qed.
Lemma varied2 : Forall (fun E => varied E) [draw_k 0; draw_k 1].
Proof.
  repeat constructor.
  - exists (-1), (1/4). cbn. repeat split; auto. lra.
  - exists (-1), (1/4). cbn. repeat split; auto. lra.
Qed.
Lemma varied2m : Forall (fun E => varied (mirrored E)) [draw_k 0; draw_k 1].
Proof.
  repeat constructor.
  - exists (-1), (1/4). cbn. repeat split; auto. lra.
  - exists (-1), (1/4). cbn. repeat split; auto. lra.
Qed.
Lemma nonempty2 : Forall (fun E : matrix R => E <> []) [draw_k 0; draw_k 1].
Proof. repeat constructor; discriminate. Qed.
(** one draw of two paths of one step *)
Definition sampler1 (p l : nat) (k : nat) : res (matrix R * nat) := Ok ([[1/2]; [INR k]], Datatypes.S k).
Lemma shaped1 : Forall (shaped 1) [[[1/2]; [INR 0]]; [[1/2]; [INR 1]]].
Proof. repeat constructor; discriminate. Qed.

(** points with a zero among them, and a quantile function with -inf at 0 *)
Definition pts : list (list R) := [[0; 1/2]; [1/4; 3/4]].
Definition quant (x : X) : X := match x with Fin u => if Req_EM_T u 0 then MInf else Fin (u - 1/2) | y => y end.
Lemma quant0 : quant (Fin 0) = MInf. Proof. cbn. destruct (Req_EM_T 0 0); [reflexivity|contradiction]. Qed.
Lemma quant_pos u : 0 < u < 1 -> exists q, quant (Fin u) = Fin q.
Proof. intro H. cbn. destruct (Req_EM_T u 0); [lra|eauto]. Qed.
Lemma pts_ok : Forall (fun u => 0 <= u < 1) (concat pts). Proof. repeat constructor; lra. Qed.
Lemma pts_ne : concat pts <> []. Proof. discriminate. Qed.
Definition pts_draw (k : nat) : matrix X := map (map (fun u => quant (Fin u))) pts.

(** two paths, one of which goes through -inf *)
Definition paths_inf : list (list (option R)) := [[Some (1/2); None]; [Some 1; Some (-1)]].
Definition sampler_inf (p l : nat) (k : nat) : res (matrix X * nat) := Ok (map (map (fun x => match x with Some e => Fin e | None => MInf end)) paths_inf, Datatypes.S k).
Definition sampler_const (p l : nat) (k : nat) : res (matrix X * nat) := Ok (map (map Fin) [[1/3]], Datatypes.S k).
Lemma const_one x : In x (concat [[1/3]]) -> x = 1/3. Proof. cbn. intros [<-|[]]; reflexivity. Qed.

(** price of one path with one step *)
Lemma one_step_price (call : bool) (S K t r b s e : R) :
  exists o tr, MonteCarloOption 1 1 1 S K t r b (Some s) (fun _ _ st => Ok (cons (cons e nil) nil, st)) wiener_path vanilla_payoff false false false = Ok o /\
   mc_price call o tt = Ok (MArray [estimate false call S K t r b s t [[e]]], tr, tt).
Proof.
  eexists. destruct (mc_price_thm unit (fun _ _ st => Ok (cons (cons e nil) nil, st)) false false false false 1 1 1 S K t r b s _ tt tt [[[e]]] eq_refl eq_refl ltac:(discriminate)) as (Es' & HT & HV).
  inversion HT as [|x y l l' T1 T2]; subst. inversion T2; subst. unfold treated in T1. subst y.
  destruct (HV call) as (tr & HV'). exists tr. split; [reflexivity|]. refine (eq_trans HV' _). cbn [map]. replace (t / INR 1) with t by (cbn; field). reflexivity.
Qed.

(** runs with given innovations, and with trace *)
Lemma given_run : exists o m, MonteCarloOption 3 2 2 100 95 (1/2) (5/100) (3/100) (Some (1/4)) (fun _ _ st => Ok (draw_k 0, Datatypes.S st)) wiener_path vanilla_payoff false true false = Ok o /\
  mc_price true o 0%nat = Ok (m, [], 3%nat).
Proof.
  eexists. destruct (mc_price_thm nat (fun _ _ st => Ok (draw_k 0, Datatypes.S st)) false false true false 3 2 2 100 95 (1/2) (5/100) (3/100) (1/4) _ 0%nat 3%nat [draw_k 0; draw_k 0; draw_k 0] eq_refl eq_refl ltac:(discriminate)) as (Es' & HT & HV).
  destruct (HV true) as (tr & HV'). eexists. split; [reflexivity|]. refine (eq_trans HV' _). 
  assert (tr = []); [|now subst]. unfold mc_price in HV'. destruct (sim_mc _ _ _) as [[m s1]|]; [|discriminate]. cbn in HV'. congruence.
Qed.
Lemma trace_run : exists o vs tr, MonteCarloOption 2 2 2 100 95 (1/2) (5/100) (3/100) (Some (1/4)) sampler wiener_path vanilla_payoff true true false = Ok o /\
  mc_price true o 0%nat = Ok (MArray vs, tr, 2%nat).
Proof.
  eexists. destruct (mc_price_thm nat sampler false true true false 2 2 2 100 95 (1/2) (5/100) (3/100) (1/4) _ 0%nat 2%nat _ eq_refl draws2 ltac:(discriminate)) as (Es' & HT & HV).
  destruct (HV true) as (tr & HV'). do 2 eexists. split; [reflexivity|exact HV'].
Qed.

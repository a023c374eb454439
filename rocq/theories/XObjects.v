(** The concrete objects used in the cases below: a Cox-Ross-Rubinstein option CRRBinomialTreeOption(S=50, K=50, t=5/12,
    r=b=1/10, sigma=2/5), a Black76Option(FT=95, K=80, t=1/2, r=1/20, sigma=1/4) and a BionomialSpreadAllTypes. *)
From Coq Require Import Reals String List Arith ZArith QArith Lra Lia.
From Verif Require Import Num Py Arr MBase MVanilla MTrees MSpread MAmerican MObjects MClasses SObjects.
From Verif Require Import PObjects PObjects2 PObjects3 PClasses2 PClasses3 PClasses5.
Import ListNotations.
Open Scope py_scope.
Open Scope string_scope.
Definition no_diff : nat -> option R -> R -> strat R := fun _ _ x => Ask x (fun y => Done (Ok y)).
Definition no_solver : R -> R -> strat R := fun x _ => Ask x (fun y => Done (Ok y)).
Definition shw : pyv R -> string := fun v => match v with VNone => "None" | _ => "number" end.
Definition shw6 : R -> string := fun _ => "number".
Definition crr_kw : dict (pyv R) := [("S", VFlt 50%R); ("K", VFlt 50%R); ("t", VFlt (5/12)%R); ("r", VFlt (1/10)%R);
  ("b", VFlt (1/10)%R); ("sigma", VFlt (2/5)%R)].
Definition crr_heap : heap R := snd (new CRR_cls crr_kw []).
Lemma crr_reach : reachable (all_classes 0 0 0) crr_heap.
Proof. apply reachable_new; [cbn; tauto|repeat constructor]. Qed.
Lemma crr_made : made (all_classes 0 0 0) CRR_cls crr_kw 0 crr_heap.
Proof. apply made_new; [cbn; tauto|repeat constructor|reflexivity]. Qed.
Definition b76_kw : dict (pyv R) := [("FT", VFlt 95%R); ("K", VFlt 80%R); ("t", VFlt (1/2)%R); ("r", VFlt (1/20)%R);
  ("sigma", VFlt (1/4)%R)].
Definition b76_heap : heap R := snd (new Black76Option_cls b76_kw []).
Lemma b76_reach : reachable (all_classes 0 0 0) b76_heap.
Proof. apply reachable_new; [cbn; tauto|repeat constructor]. Qed.
Lemma b76_new : new Black76Option_cls b76_kw [] = (Ok 0%nat, b76_heap).
Proof.
  unfold b76_heap, new.
  change (bind_args _ _) with (Ok [VFlt 95%R; VFlt 80%R; VFlt (1/2)%R; VFlt (1/20)%R; VFlt (1/4)%R]).
  cbv iota beta. rewrite PObjects2.new_vals_spec. unfold run_init. cbn -[Reqb gbs_d1 Q2R]. rewrite R0 by lra. reflexivity.
Qed.
Lemma b76_made : made (all_classes 0 0 0) Black76Option_cls b76_kw 0 b76_heap.
Proof. apply made_new; [cbn; tauto|repeat constructor|apply b76_new]. Qed.
Definition all_kw : dict (pyv R) := [("S1", VFlt 122%R); ("S2", VFlt 120%R); ("t", VInt 1); ("r", VFlt (1/10)%R);
  ("b1", VFlt 0%R); ("b2", VFlt 0%R); ("sigma1", VFlt (1/5)%R); ("sigma2", VFlt (1/4)%R); ("rho", VFlt (1/2)%R); ("K", VInt 3)].
Lemma made_opt (T : Type) (N : Num T) f1 f2 f3 (c : cls T) kw a h : made (all_classes f1 f2 f3) c kw a h -> exists s, get_opt h a = Ok (c, s).
Proof.
  intro Hm. apply made_tracks in Hm. destruct Hm as (_ & _ & (s & vals & Ha & _) & _). exists s. now apply get_opt_hget.
Qed.
Lemma all_made : made (all_classes 0 0 0) AllTypes_cls all_kw 0 (snd (new AllTypes_cls all_kw [])).
Proof.
  apply made_new; [cbn; tauto|repeat constructor|].
  unfold new. change (bind_args _ _) with (Ok (map (arg_value AllTypes_cls all_kw) (map fst (c_sig AllTypes_cls)))).
  cbv iota beta. rewrite new_vals_spec. 
  assert (E : snd (run_init AllTypes_cls (map (arg_value AllTypes_cls all_kw) (map fst (c_sig AllTypes_cls))) []) = None).
  { unfold run_init. cbn -[Reqb Q2R]. rewrite R0 by lra. reflexivity. }
  rewrite E. reflexivity.
Qed.
Lemma all_reach : reachable (all_classes 0 0 0) (snd (new AllTypes_cls all_kw [])).
Proof. apply reachable_new; [cbn; tauto|repeat constructor]. Qed.

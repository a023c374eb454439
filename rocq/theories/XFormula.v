(** The concrete objects used in the cases of C64, besides those of XObjects.v. *)
From Coq Require Import Reals String List Arith ZArith QArith Lra Lia.
From Verif Require Import Num Py Arr MBase MVanilla MTrees MSpread MAmerican MObjects MClasses STrees SObjects SFormula.
From Verif Require Import PObjects PObjects2 PObjects3 PClasses2 PClasses3 PClasses5 XObjects.
Import ListNotations.
Open Scope py_scope.
Open Scope string_scope.

(** the numbers of a list of arguments *)
Definition nums_of (l : list (string * R)) (p : string) : R := match dget l p with Some x => x | None => 0%R end.
Ltac args := let p := fresh in let H := fresh in intros p H; cbn in H; repeat (destruct H as [<-|H]; [cbn; f_equal; lra|]); destruct H.

Definition bs_kw : dict (pyv R) := [("S", VFlt 42%R); ("K", VInt 40); ("t", VFlt (3/4)%R); ("r", VFlt (1/25)%R); ("b", VFlt (-1/25)%R); ("sigma", VFlt (7/20)%R)].
Lemma bs_made : made (all_classes 0 0 0) BSAmerican_cls bs_kw 0 (snd (new BSAmerican_cls bs_kw [])).
Proof. apply made_new; [cbn; tauto|repeat constructor|reflexivity]. Qed.

Definition ms_kw : dict (pyv R) := [("Pt", VFlt (19/20)%R); ("FT", VFlt 95%R); ("K", VFlt 80%R); ("t", VFlt (1/4)%R); ("T", VFlt (1/2)%R);
  ("sigmaS", VFlt (53/200)%R); ("sigmaE", VFlt (49/200)%R); ("sigmaF", VFlt (3/200)%R); ("rhoSE", VFlt (4/5)%R); ("rhoSF", VFlt (1/10)%R); ("rhoEF", VFlt (1/10)%R);
  ("KappaE", VFlt 1%R); ("KappaF", VFlt (1/5)%R)].
Lemma ms_made : made (all_classes 0 0 0) MiltersenSchwartz_cls ms_kw 0 (snd (new MiltersenSchwartz_cls ms_kw [])).
Proof.
  apply made_new; [cbn; tauto|repeat constructor|].
  unfold new. change (bind_args _ _) with (Ok (map (arg_value MiltersenSchwartz_cls ms_kw) (map fst (c_sig MiltersenSchwartz_cls)))).
  cbv iota beta. rewrite new_vals_spec.
  assert (E : snd (run_init MiltersenSchwartz_cls (map (arg_value MiltersenSchwartz_cls ms_kw) (map fst (c_sig MiltersenSchwartz_cls))) []) = None).
  { unfold run_init. cbn -[Reqb Q2R ms_vz2 ms_vxz]. do 8 (rewrite ?R0 by lra; cbn -[Reqb Q2R ms_vz2 ms_vxz]). reflexivity. }
  rewrite E. reflexivity.
Qed.
Definition spread_kw : dict (pyv R) := [("S1", VFlt 122%R); ("S2", VFlt 120%R); ("K", VInt 3); ("t", VInt 1); ("r", VFlt (1/10)%R);
  ("b1", VFlt 0%R); ("b2", VFlt 0%R); ("sigma1", VFlt (1/5)%R); ("sigma2", VFlt (1/4)%R); ("rho", VFlt (1/2)%R)].
Lemma max_made : made (all_classes 0 0 0) Max_cls spread_kw 0 (snd (new Max_cls spread_kw [])).
Proof.
  apply made_new; [cbn; tauto|repeat constructor|].
  unfold new. change (bind_args _ _) with (Ok (map (arg_value Max_cls spread_kw) (map fst (c_sig Max_cls)))).
  cbv iota beta. rewrite new_vals_spec.
  assert (E : snd (run_init Max_cls (map (arg_value Max_cls spread_kw) (map fst (c_sig Max_cls))) []) = None).
  { unfold run_init. cbn -[Reqb Q2R]. rewrite R0 by lra. reflexivity. }
  rewrite E. reflexivity.
Qed.
Lemma five_steps (c : cls R) kw : arg_value c kw "n" = VInt 5 -> step_count c kw 5.
Proof. intro H. split; [exact H|]. split; [discriminate|]. cbn -[Reqb Q2R]. apply R0. lra. Qed.

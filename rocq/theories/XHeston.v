(** Concrete cases used by the examples of Props_Heston.v. *)
From Coq Require Import Reals ZArith QArith Qreals Lra Lia.
From Coquelicot Require Import Coquelicot.
From Coq Require Import List Bool.
From Verif Require Import Num Py MAmerican MMonte SMonte PMonte MHeston SHeston PHeston PHeston2 PHeston4.
Import ListNotations.
Open Scope R_scope.

Lemma st1 : stationary (1 / 10) (1 / 10) (1 / 5) (1 / 4 + 1 / 4 + 1 / 2) (2 / 7).
Proof. apply stationary_iff; lra. Qed.
Lemma st2 : stationary (1 / 10) (1 / 10) (1 / 5) (1 / 2) (8 / 31).
Proof. apply stationary_iff; lra. Qed.

(** a two-point quadrature rule *)
Definition twopt := rule [(1, 1); (1 / 2, 2)].
Lemma twopt_off0 (f g : R -> res R) : (forall x, x <> 0 -> f x = g x) -> twopt f = twopt g.
Proof. intro H. unfold twopt, rule. rewrite (H 1), (H 2) by lra. reflexivity. Qed.
Lemma twopt_ext : extensional twopt.
Proof. intros f g H. apply twopt_off0. intros. apply H. Qed.
Lemma twopt_strict : strict twopt. Proof. intro e. reflexivity. Qed.
Lemma twopt_scales : scales twopt.
Proof. intros c f. unfold twopt, rule. destruct (f 1) as [a|]; [|reflexivity]. destruct (f 2) as [b|]; [|reflexivity]. cbn. apply f_equal. lra. Qed.
Lemma twopt_nodes : Forall (fun p : R * R => snd p <> 0) [(1, 1); (1 / 2, 2)].
Proof. repeat constructor; cbn; lra. Qed.

(** a minimiser that evaluates the objective at a fixed point *)
Definition at_point (f : list R -> res R) (s : list R) : res (list R * R) := rmap (fun v => ([1 / 5; 0; 0; 0; 1 / 2], v)) (f [1 / 5; 0; 0; 0; 1 / 2]).
Lemma at_point_ok f s est fn : at_point f s = Ok (est, fn) -> f est = Ok fn.
Proof. unfold at_point. destruct (f [1 / 5; 0; 0; 0; 1 / 2]) as [v|] eqn:E; [|discriminate]. cbn. intro H. apply Ok_inj in H. injection H as <- <-. exact E. Qed.
Lemma unit0 : to_unit 0 = 1 / 2.
Proof. unfold to_unit. rewrite Ropp_0, exp_0. lra. Qed.
Lemma fit_persistence fit : hngarch_fit at_point [1 / 10; - (1 / 5)] 1 None None (1 / 5) (1 / 2) (1 / 20) false = Ok fit -> g_persistence fit < 1.
Proof.
  intro H. apply Ok_inj in H. rewrite <- H. cbn [g_persistence]. rewrite logistic_unit. cbn [item of_opt nth_error]. rewrite unit0. cbn. lra.
Qed.

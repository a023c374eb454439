(** Complex-valued functions of a real variable: derivatives, integrals over intervals, exponential and logarithm. *)
From Coq Require Import Reals Lra Lia.
From Coquelicot Require Import Coquelicot.
From Verif Require Import Num PCnd PGauss.
Open Scope R_scope.
Open Scope C_scope.

Definition Cexp (z : C) : C := (exp (Re z) * cos (Im z), exp (Re z) * sin (Im z))%R.
Definition cder (f : R -> C) (s : R) (v : C) : Prop := is_derive (fun t => Re (f t)) s (Re v) /\ is_derive (fun t => Im (f t)) s (Im v).

Lemma C_ext (z w : C) : Re z = Re w -> Im z = Im w -> z = w.
Proof. destruct z, w. cbn. congruence. Qed.
Lemma Cexp_plus z w : Cexp (z + w) = Cexp z * Cexp w.
Proof. apply C_ext; unfold Cexp; destruct z as [a b], w as [c d]; cbn; rewrite exp_plus, ?cos_plus, ?sin_plus; ring. Qed.
Lemma Cexp_0 : Cexp 0 = 1.
Proof. apply C_ext; unfold Cexp; cbn; rewrite exp_0, ?cos_0, ?sin_0; ring. Qed.
Lemma Cexp_neg z : Cexp z * Cexp (- z) = 1.
Proof. rewrite <- Cexp_plus. replace (z + - z) with (RtoC 0) by ring. apply Cexp_0. Qed.
Lemma Cexp_real (x : R) : Cexp x = exp x.
Proof. apply C_ext; unfold Cexp; cbn; rewrite ?cos_0, ?sin_0; ring. Qed.

Lemma cder_ext f g s v : (forall t, f t = g t) -> cder f s v -> cder g s v.
Proof. intros E [H1 H2]. split; [eapply is_derive_ext; [|exact H1]|eapply is_derive_ext; [|exact H2]]; intro t; cbn; now rewrite E. Qed.
Lemma cder_eq f s v w : v = w -> cder f s v -> cder f s w. Proof. now intros ->. Qed.
Lemma cder_const c s : cder (fun _ => c) s 0.
Proof. split; cbn; apply (is_derive_const (K := R_AbsRing) (V := R_NormedModule)). Qed.
Lemma cder_real (f : R -> R) s v : is_derive f s v -> cder (fun t => RtoC (f t)) s (RtoC v).
Proof. intro H. split; cbn; [exact H|apply (is_derive_const (K := R_AbsRing) (V := R_NormedModule))]. Qed.
Lemma cder_plus f g s v w : cder f s v -> cder g s w -> cder (fun t => f t + g t) s (v + w).
Proof. intros [F1 F2] [G1 G2]. split; cbn; apply (is_derive_plus (K := R_AbsRing) (V := R_NormedModule)); assumption. Qed.
Lemma rder_mult (f g : R -> R) s v w : is_derive f s v -> is_derive g s w -> is_derive (fun t => f t * g t)%R s (v * g s + f s * w)%R.
Proof. intros H1 H2. evar_last. { apply (is_derive_mult f g s v w H1 H2). intros; apply Rmult_comm. } reflexivity. Qed.
Lemma cder_mult f g s v w : cder f s v -> cder g s w -> cder (fun t => f t * g t) s (v * g s + f s * w).
Proof.
  intros [F1 F2] [G1 G2]. split; cbn.
  - evar_last. { apply (is_derive_minus (K := R_AbsRing) (V := R_NormedModule) (fun t => Re (f t) * Re (g t))%R (fun t => Im (f t) * Im (g t))%R); apply rder_mult; eassumption. }
    hier. unfold minus, plus, opp. cbn. unfold Re, Im. ring.
  - evar_last. { apply (is_derive_plus (K := R_AbsRing) (V := R_NormedModule) (fun t => Re (f t) * Im (g t))%R (fun t => Im (f t) * Re (g t))%R); apply rder_mult; eassumption. }
    hier. unfold minus, plus, opp. cbn. unfold Re, Im. ring.
Qed.
Lemma cder_scal c f s v : cder f s v -> cder (fun t => c * f t) s (c * v).
Proof. intro H. eapply cder_eq; [|apply (cder_mult (fun _ => c) f); [apply cder_const|exact H]]. ring. Qed.
Lemma cder_exp f s v : cder f s v -> cder (fun t => Cexp (f t)) s (v * Cexp (f s)).
Proof.
  intros [F1 F2].
  assert (E : is_derive (fun t => exp (Re (f t))) s (Re v * exp (Re (f s)))%R).
  { evar_last. { apply (is_derive_comp exp (fun t => Re (f t))); [apply is_derive_Reals, derivable_pt_lim_exp|exact F1]. } reflexivity. }
  assert (HC : is_derive (fun t => cos (Im (f t))) s (Im v * - sin (Im (f s)))%R).
  { evar_last. { apply (is_derive_comp cos (fun t => Im (f t))); [apply is_derive_Reals, derivable_pt_lim_cos|exact F2]. } reflexivity. }
  assert (HS : is_derive (fun t => sin (Im (f t))) s (Im v * cos (Im (f s)))%R).
  { evar_last. { apply (is_derive_comp sin (fun t => Im (f t))); [apply is_derive_Reals, derivable_pt_lim_sin|exact F2]. } reflexivity. }
  split; unfold Cexp; cbn.
  - evar_last. { apply rder_mult; [exact E|exact HC]. } unfold Re, Im. ring.
  - evar_last. { apply rder_mult; [exact E|exact HS]. } unfold Re, Im. ring.
Qed.
Lemma cder_cont f s v : cder f s v -> continuous (fun t => Re (f t)) s /\ continuous (fun t => Im (f t)) s.
Proof. intros [H1 H2]. split; apply (ex_derive_continuous (V := R_NormedModule)); eexists; eassumption. Qed.

(** logarithm on the right half plane *)
Definition Cln (z : C) : C := (ln (sqrt (Re z ^ 2 + Im z ^ 2)), atan (Im z / Re z))%R.
Lemma cder_inv (f : R -> C) s v : f s <> 0 -> cder f s v -> cder (fun t => / f t) s (- v / (f s * f s)).
Proof.
  intros Hn [F1 F2]. assert (Hd : (Re (f s) ^ 2 + Im (f s) ^ 2)%R <> 0%R).
  { intro E. apply Hn. apply C_ext; cbn; nra. }
  assert (HD : is_derive (fun t => Re (f t) ^ 2 + Im (f t) ^ 2)%R s (2 * Re v * Re (f s) + 2 * Im v * Im (f s))%R).
  { evar_last. { apply (is_derive_plus (K := R_AbsRing) (V := R_NormedModule) (fun t => Re (f t) ^ 2)%R (fun t => Im (f t) ^ 2)%R); apply is_derive_pow; eassumption. }
    hier. unfold plus. cbn. ring. }
  assert (HI := is_derive_inv _ s _ HD Hd).
  split; cbn.
  - eapply is_derive_ext; [|evar_last; [apply rder_mult; [exact F1|exact HI]|]].
    + intro t. cbn. reflexivity.
    + unfold Re, Im in *. cbn. field. repeat split; intro E; apply Hd; first [eapply eq_trans; [|exact E]; ring | apply Rsqr_0_uniq; unfold Rsqr; eapply eq_trans; [|exact E]; ring].
  - eapply is_derive_ext; [|evar_last; [apply rder_mult; [apply (is_derive_opp (K := R_AbsRing) (V := R_NormedModule)); exact F2|exact HI]|]].
    + intro t. cbn. reflexivity.
    + unfold opp. cbn. unfold Re, Im in *. cbn. field. repeat split; intro E; apply Hd; first [eapply eq_trans; [|exact E]; ring | apply Rsqr_0_uniq; unfold Rsqr; eapply eq_trans; [|exact E]; ring].
Qed.
Lemma cder_ln (f : R -> C) s v : (0 < Re (f s))%R -> cder f s v -> cder (fun t => Cln (f t)) s (v / f s).
Proof.
  intros Hp [F1 F2]. assert (Hd : (0 < Re (f s) ^ 2 + Im (f s) ^ 2)%R) by nra.
  assert (HD : is_derive (fun t => Re (f t) ^ 2 + Im (f t) ^ 2)%R s (2 * Re v * Re (f s) + 2 * Im v * Im (f s))%R).
  { evar_last. { apply (is_derive_plus (K := R_AbsRing) (V := R_NormedModule) (fun t => Re (f t) ^ 2)%R (fun t => Im (f t) ^ 2)%R); apply is_derive_pow; eassumption. }
    hier. unfold plus. cbn. ring. }
  split; cbn.
  - evar_last. { apply (is_derive_comp (fun x => ln (sqrt x)) (fun t => Re (f t) * (Re (f t) * 1) + Im (f t) * (Im (f t) * 1))%R); [|exact HD].
      apply (is_derive_comp ln sqrt); [apply is_derive_Reals, derivable_pt_lim_ln, sqrt_lt_R0; cbn in *; exact Hd|apply is_derive_sqrt with (f := fun x => x) (df := 1%R); [apply (is_derive_id (K := R_AbsRing))|cbn in *; exact Hd]]. }
    hier. unfold scal. cbn. unfold mult. cbn. unfold Re, Im in *.
    set (d := (fst (f s) * (fst (f s) * 1) + snd (f s) * (snd (f s) * 1))%R) in *.
    assert (Hq : (sqrt d * sqrt d = d)%R) by (apply sqrt_sqrt; cbn in Hd; fold d in Hd; lra).
    assert (Hs : (sqrt d <> 0)%R) by (intro E; rewrite E in Hq; cbn in Hd; fold d in Hd; lra).
    replace (1 / (2 * sqrt d) * / sqrt d)%R with (/ (2 * d))%R by (rewrite <- Hq at 1; field; exact Hs). cbn in Hd. fold d in Hd. unfold d in *. field. lra.
  - assert (HQ : is_derive (fun t => Im (f t) / Re (f t))%R s ((Im v * Re (f s) - Im (f s) * Re v) / Re (f s) ^ 2)%R).
    { evar_last. { apply is_derive_div; [exact F2|exact F1|lra]. } reflexivity. }
    evar_last. { apply (is_derive_comp atan (fun t => Im (f t) / Re (f t))%R); [apply is_derive_Reals, derivable_pt_lim_atan|exact HQ]. }
    hier. unfold scal. cbn. unfold mult. cbn. unfold Re, Im, Rsqr in *. cbn in *. field. repeat split; lra || nra.
Qed.
Lemma Cexp_conj_mod z : (Cmod (Cexp z) = exp (Re z))%R.
Proof.
  unfold Cmod, Cexp. cbn [fst snd]. replace ((exp (Re z) * cos (Im z)) ^ 2 + (exp (Re z) * sin (Im z)) ^ 2)%R with (exp (Re z) ^ 2 * (Rsqr (sin (Im z)) + Rsqr (cos (Im z))))%R by (unfold Rsqr; ring).
  rewrite sin2_cos2, Rmult_1_r. apply sqrt_pow2. left. apply exp_pos.
Qed.

(** integrals *)
Definition cint (f : R -> C) (a b : R) (v : C) : Prop := is_RInt (fun t => Re (f t)) a b (Re v) /\ is_RInt (fun t => Im (f t)) a b (Im v).
Lemma cint_ext f g a b v : (forall t, f t = g t) -> cint f a b v -> cint g a b v.
Proof. intros E [H1 H2]. split; [eapply is_RInt_ext; [|exact H1]|eapply is_RInt_ext; [|exact H2]]; intros t _; cbn; now rewrite E. Qed.
Lemma cint_plus f g a b v w : cint f a b v -> cint g a b w -> cint (fun t => f t + g t) a b (v + w).
Proof. intros [F1 F2] [G1 G2]. split; cbn; apply (is_RInt_plus (V := R_NormedModule)); assumption. Qed.
Lemma cint_scal c f a b v : cint f a b v -> cint (fun t => c * f t) a b (c * v).
Proof.
  intros [F1 F2]. split; cbn.
  - apply (is_RInt_minus (V := R_NormedModule) (fun t => Re c * Re (f t))%R (fun t => Im c * Im (f t))%R); apply (is_RInt_scal (V := R_NormedModule)); assumption.
  - apply (is_RInt_plus (V := R_NormedModule) (fun t => Re c * Im (f t))%R (fun t => Im c * Re (f t))%R); apply (is_RInt_scal (V := R_NormedModule)); assumption.
Qed.
Lemma cint_der F f a b : (forall t, cder F t (f t)) -> (forall t, exists v, cder f t v) -> cint f a b (F b - F a).
Proof.
  intros HF Hf. split.
  - apply (is_RInt_derive (V := R_CompleteNormedModule) (fun t => Re (F t)) (fun t => Re (f t))).
    + intros t _. apply (HF t). + intros t _. destruct (Hf t) as [v Hv]. apply (cder_cont _ _ _ Hv).
  - apply (is_RInt_derive (V := R_CompleteNormedModule) (fun t => Im (F t)) (fun t => Im (f t))).
    + intros t _. apply (HF t). + intros t _. destruct (Hf t) as [v Hv]. apply (cder_cont _ _ _ Hv).
Qed.
Lemma cint_unique f a b v w : cint f a b v -> cint f a b w -> v = w.
Proof.
  intros [F1 F2] [G1 G2]. apply C_ext.
  - rewrite <- (is_RInt_unique (V := R_CompleteNormedModule) _ _ _ _ F1). now apply (is_RInt_unique (V := R_CompleteNormedModule)).
  - rewrite <- (is_RInt_unique (V := R_CompleteNormedModule) _ _ _ _ F2). now apply (is_RInt_unique (V := R_CompleteNormedModule)).
Qed.
Lemma cint_ex f a b : (forall t, exists v, cder f t v) -> exists v, cint f a b v.
Proof.
  intro Hf. destruct (ex_RInt_continuous (V := R_CompleteNormedModule) (fun t => Re (f t)) a b) as [x Hx].
  { intros t _. destruct (Hf t) as [v Hv]. apply (cder_cont _ _ _ Hv). }
  destruct (ex_RInt_continuous (V := R_CompleteNormedModule) (fun t => Im (f t)) a b) as [y Hy].
  { intros t _. destruct (Hf t) as [v Hv]. apply (cder_cont _ _ _ Hv). }
  exists (x, y). split; assumption.
Qed.

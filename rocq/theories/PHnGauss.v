(** The Gaussian integral of exp (u z + w z^2) for complex u and w, Re w < 1/2. *)
From Coq Require Import Reals Lra Lia.
From Coquelicot Require Import Coquelicot.
From Verif Require Import Num PCnd PGauss PMonte4 PCplx.
Open Scope R_scope.
Open Scope C_scope.
Arguments Cmod _%C.
Arguments Re _%C.
Arguments Im _%C.
Arguments Cexp _%C.
Arguments Cln _%C.

(** continuity of complex-valued functions of two real variables *)
Definition c2 (f : R -> R -> C) (x y : R) : Prop := continuity_2d_pt (fun s t => Re (f s t)) x y /\ continuity_2d_pt (fun s t => Im (f s t)) x y.
Lemma c2_const c x y : c2 (fun _ _ => c) x y. Proof. split; apply continuity_2d_pt_const. Qed.
Lemma c2_id1 x y : c2 (fun s _ => RtoC s) x y. Proof. split; cbn; [apply continuity_2d_pt_id1|apply continuity_2d_pt_const]. Qed.
Lemma c2_id2 x y : c2 (fun _ t => RtoC t) x y. Proof. split; cbn; [apply continuity_2d_pt_id2|apply continuity_2d_pt_const]. Qed.
Lemma c2_plus f g x y : c2 f x y -> c2 g x y -> c2 (fun s t => f s t + g s t) x y.
Proof. intros [F1 F2] [G1 G2]. split; cbn; apply continuity_2d_pt_plus; assumption. Qed.
Lemma c2_mult f g x y : c2 f x y -> c2 g x y -> c2 (fun s t => f s t * g s t) x y.
Proof.
  intros [F1 F2] [G1 G2]. split; cbn.
  - apply continuity_2d_pt_minus; apply continuity_2d_pt_mult; assumption.
  - apply continuity_2d_pt_plus; apply continuity_2d_pt_mult; assumption.
Qed.
Lemma c2_opp f x y : c2 f x y -> c2 (fun s t => - f s t) x y.
Proof. intros [F1 F2]. split; cbn; apply continuity_2d_pt_opp; assumption. Qed.
Lemma c2_minus f g x y : c2 f x y -> c2 g x y -> c2 (fun s t => f s t - g s t) x y.
Proof. intros. unfold Cminus. apply c2_plus; [assumption|now apply c2_opp]. Qed.
Lemma c2_exp f x y : c2 f x y -> c2 (fun s t => Cexp (f s t)) x y.
Proof.
  intros [F1 F2]. split; cbn; apply continuity_2d_pt_mult.
  1,3: apply (continuity_1d_2d_pt_comp exp (fun s t => Re (f s t))); [apply derivable_continuous_pt, derivable_pt_exp|exact F1].
  - apply (continuity_1d_2d_pt_comp cos (fun s t => Im (f s t))); [apply derivable_continuous_pt, derivable_pt_cos|exact F2].
  - apply (continuity_1d_2d_pt_comp sin (fun s t => Im (f s t))); [apply derivable_continuous_pt, derivable_pt_sin|exact F2].
Qed.
Ltac c2go := repeat first [apply c2_const | apply c2_id1 | apply c2_id2 | apply c2_exp | apply c2_plus | apply c2_minus | apply c2_mult | apply c2_opp].

(** differentiation under the integral *)
Lemma cint_param (f df : R -> R -> C) (J : R -> C) s a b V :
  (forall x t, cder (fun y => f y t) x (df x t)) -> (forall t, c2 df s t) ->
  (forall x, cint (f x) a b (J x)) -> cint (df s) a b V -> cder J s V.
Proof.
  intros HD HC HJ [V1 V2]. split.
  - apply is_derive_ext with (fun x => RInt (fun t => Re (f x t)) a b).
    { intro x. exact (is_RInt_unique (V := R_CompleteNormedModule) _ _ _ _ (proj1 (HJ x))). }
    rewrite <- (is_RInt_unique (V := R_CompleteNormedModule) _ _ _ _ V1).
    rewrite (RInt_ext _ (fun t => Derive (fun y => Re (f y t)) s)).
    + apply (is_derive_RInt_param (fun x t => Re (f x t)) a b s).
      * exists (mkposreal 1 Rlt_0_1). intros y _ t _. eexists. apply (proj1 (HD y t)).
      * intros t _. apply continuity_2d_pt_ext with (fun x y => Re (df x y)).
        -- intros x y. symmetry. apply is_derive_unique, (proj1 (HD x y)).
        -- apply HC.
      * exists (mkposreal 1 Rlt_0_1). intros y _. eexists. apply (proj1 (HJ y)).
    + intros t _. symmetry. apply is_derive_unique, (proj1 (HD s t)).
  - apply is_derive_ext with (fun x => RInt (fun t => Im (f x t)) a b).
    { intro x. exact (is_RInt_unique (V := R_CompleteNormedModule) _ _ _ _ (proj2 (HJ x))). }
    rewrite <- (is_RInt_unique (V := R_CompleteNormedModule) _ _ _ _ V2).
    rewrite (RInt_ext _ (fun t => Derive (fun y => Im (f y t)) s)).
    + apply (is_derive_RInt_param (fun x t => Im (f x t)) a b s).
      * exists (mkposreal 1 Rlt_0_1). intros y _ t _. eexists. apply (proj2 (HD y t)).
      * intros t _. apply continuity_2d_pt_ext with (fun x y => Im (df x y)).
        -- intros x y. symmetry. apply is_derive_unique, (proj2 (HD x y)).
        -- apply HC.
      * exists (mkposreal 1 Rlt_0_1). intros y _. eexists. apply (proj2 (HJ y)).
    + intros t _. symmetry. apply is_derive_unique, (proj2 (HD s t)).
Qed.

Lemma cder_id s : cder (fun t => RtoC t) s 1.
Proof. apply (cder_real (fun t => t) s 1%R). apply (is_derive_id (K := R_AbsRing)). Qed.
Lemma cder_minus f g s v w : cder f s v -> cder g s w -> cder (fun t => f t - g t) s (v - w).
Proof. intros [F1 F2] [G1 G2]. split; cbn; apply (is_derive_minus (K := R_AbsRing) (V := R_NormedModule)); assumption. Qed.
Lemma cint_minus f g a b v w : cint f a b v -> cint g a b w -> cint (fun t => f t - g t) a b (v - w).
Proof. intros [F1 F2] [G1 G2]. split; cbn; apply (is_RInt_minus (V := R_NormedModule)); assumption. Qed.

Lemma Re_le_Cmod z : (Rabs (Re z) <= Cmod z)%R.
Proof. eapply Rle_trans; [apply Rmax_l|apply Rmax_Cmod]. Qed.
Lemma Im_le_Cmod z : (Rabs (Im z) <= Cmod z)%R.
Proof. eapply Rle_trans; [apply Rmax_r|apply Rmax_Cmod]. Qed.
Lemma Cmod_le_sum z : (Cmod z <= Rabs (Re z) + Rabs (Im z))%R.
Proof.
  replace z with (RtoC (Re z) + (0, 1)%R * RtoC (Im z)) at 1 by (apply C_ext; cbn; ring).
  eapply Rle_trans; [apply Cmod_triangle|]. rewrite Cmod_mult, !Cmod_R.
  replace (Cmod (0, 1)%R) with 1%R; [lra|]. unfold Cmod. cbn. replace (0 * (0 * 1) + 1 * (1 * 1))%R with 1%R by ring. now rewrite sqrt_1.
Qed.
Lemma cder_mvt f (df : R -> C) B : (forall t, (0 <= t <= 1)%R -> cder f t (df t)) -> (forall t, (0 <= t <= 1)%R -> (Cmod (df t) <= B)%R) ->
  (Cmod (f 1%R - f 0%R)%C <= 2 * B)%R.
Proof.
  intros HD HB.
  assert (X : forall (g dg : R -> R), (forall t, 0 <= t <= 1 -> is_derive g t (dg t))%R -> (forall t, 0 <= t <= 1 -> Rabs (dg t) <= B)%R -> (Rabs (g 1 - g 0) <= B)%R).
  { intros g dg Hg Hb. destruct (MVT_gen g 0 1 dg) as (c & Hc & E).
    - intros x Hx. rewrite Rmin_left, Rmax_right in Hx by lra. apply Hg. lra.
    - intros x Hx. rewrite Rmin_left, Rmax_right in Hx by lra. apply continuity_pt_filterlim. apply (ex_derive_continuous (V := R_NormedModule) g). eexists. now apply Hg.
    - rewrite Rmin_left, Rmax_right in Hc by lra. rewrite E. replace (dg c * (1 - 0))%R with (dg c) by ring. now apply Hb. }
  eapply Rle_trans; [apply Cmod_le_sum|].
  assert (H1 := X (fun t => Re (f t)) (fun t => Re (df t)) (fun t Ht => proj1 (HD t Ht)) (fun t Ht => Rle_trans _ _ _ (Re_le_Cmod _) (HB t Ht))).
  assert (H2 := X (fun t => Im (f t)) (fun t => Im (df t)) (fun t Ht => proj2 (HD t Ht)) (fun t Ht => Rle_trans _ _ _ (Im_le_Cmod _) (HB t Ht))).
  cbn. cbn in H1, H2. unfold Re, Im in *. unfold Rminus in *. lra.
Qed.

Lemma exp_le x y : (x <= y -> exp x <= exp y)%R.
Proof. intros [H| ->]; [left; now apply exp_increasing|right; reflexivity]. Qed.

Section G.
Variables u w : C.
Hypothesis Hw : (2 * Re w < 1)%R.
Definition gE (s z : R) : C := RtoC s * (u * RtoC z + w * (RtoC z * RtoC z)) - RtoC (z * z / 2).
Definition gp (s : R) : C := 1 - 2 * (RtoC s * w).
Definition gL (s : R) : C := RtoC s * RtoC s * (u * u) / (2 * gp s) - Cln (gp s) / 2.
Definition gc : R := Rmin 1 (1 - 2 * Re w).
Lemma gc_pos : (0 < gc)%R. Proof. unfold gc. apply Rmin_glb_lt; lra. Qed.
Lemma gp_re s : (0 <= s <= 1)%R -> (gc <= Re (gp s))%R.
Proof.
  intro Hs. unfold gc, gp. cbn. unfold Re, Im in *. pose proof (Rmin_l 1 (1 - 2 * fst w)). pose proof (Rmin_r 1 (1 - 2 * fst w)). nra.
Qed.
Lemma gp_nz s : (0 <= s <= 1)%R -> gp s <> 0.
Proof. intros Hs E. generalize (gp_re s Hs) gc_pos. rewrite E. cbn. lra. Qed.
Lemma RtoC_half (x : R) : RtoC (x / 2) = RtoC x / 2. Proof. rewrite RtoC_div; [reflexivity|lra]. Qed.
Lemma C2nz : RtoC 2 <> 0. Proof. intro E. injection E. lra. Qed.
Lemma C2 : RtoC 2 = 1 + 1. Proof. apply C_ext; cbn; ring. Qed.
Lemma gE_dz s z : cder (fun z => gE s z) z (s * u - gp s * z).
Proof.
  unfold gE. eapply cder_eq; [|apply cder_minus; [apply cder_scal, cder_plus; [apply cder_scal, cder_id|apply cder_scal; apply (cder_mult (fun z => RtoC z) (fun z => RtoC z)); apply cder_id]|apply (cder_real (fun z => z * z / 2)%R z z)]].
  - unfold gp. rewrite C2. ring.
  - auto_derive; [easy|]. field.
Qed.
Lemma gE_ds s z : cder (fun s => gE s z) s (u * z + w * (z * z)).
Proof.
  unfold gE. eapply cder_eq; [|apply cder_minus; [apply (cder_mult (fun s => RtoC s) (fun _ => u * z + w * (z * z))); [apply cder_id|apply cder_const]|apply cder_const]]. ring.
Qed.
Lemma ge_dz s z : cder (fun z => Cexp (gE s z)) z ((s * u - gp s * z) * Cexp (gE s z)).
Proof. apply cder_exp, gE_dz. Qed.
Lemma ge_dz1 s z : cder (fun z => z * Cexp (gE s z)) z (Cexp (gE s z) + z * ((s * u - gp s * z) * Cexp (gE s z))).
Proof. eapply cder_eq; [|apply (cder_mult (fun z => RtoC z)); [apply cder_id|apply ge_dz]]. cbn beta. ring. Qed.
Lemma ge_dz2 s z : exists v, cder (fun z => z * z * Cexp (gE s z)) z v.
Proof. eexists. apply (cder_mult (fun z => RtoC z * RtoC z)); [apply (cder_mult (fun z => RtoC z)); apply cder_id|apply ge_dz]. Qed.

(** the truncated integral and its derivative in s *)
Section Trunc.
Variables a b : R.
Lemma gJ_ex s : { v | cint (fun z => Cexp (gE s z)) a b v }.
Proof.
  exists (RInt (fun z => Re (Cexp (gE s z))) a b, RInt (fun z => Im (Cexp (gE s z))) a b).
  destruct (cint_ex (fun z => Cexp (gE s z)) a b) as [v [H1 H2]]. { intro t. eexists. apply ge_dz. }
  split; cbn [Re Im fst snd]; apply (RInt_correct (V := R_CompleteNormedModule)); eexists; eassumption.
Qed.
Definition gJJ (s : R) : C := proj1_sig (gJ_ex s).
Lemma gJJ_int s : cint (fun z => Cexp (gE s z)) a b (gJJ s). Proof. unfold gJJ. now destruct (gJ_ex s). Qed.
Definition gB0 (s : R) : C := Cexp (gE s b) - Cexp (gE s a).
Definition gB1 (s : R) : C := b * Cexp (gE s b) - a * Cexp (gE s a).
Definition gbnd (s : R) : C := - (u * gB0 s / gp s) - w * (s * u * gB0 s / gp s + gB1 s) / gp s.
Definition gL' (s : R) : C := s * u * u / gp s + w * (1 / gp s + s * s * u * u / (gp s * gp s)).
Lemma gJJ_der s : (0 <= s <= 1)%R -> cder gJJ s (gL' s * gJJ s + gbnd s).
Proof.
  intro Hs. destruct (cint_ex (fun z => z * Cexp (gE s z)) a b) as [I1 H1]. { intro t. eexists. apply ge_dz1. }
  destruct (cint_ex (fun z => z * z * Cexp (gE s z)) a b) as [I2 H2]. { intro t. apply ge_dz2. }
  assert (H0 := gJJ_int s).
  assert (P0 : gB0 s = s * u * gJJ s - gp s * I1).
  { apply (cint_unique (fun z => (s * u - gp s * z) * Cexp (gE s z)) a b).
    - apply (cint_der (fun z => Cexp (gE s z))); [intro t; apply ge_dz|]. intro t. eexists. apply (cder_mult (fun z => s * u - gp s * z)); [apply (cder_minus (fun _ => s * u)); [apply cder_const|apply cder_scal, cder_id]|apply ge_dz].
    - eapply cint_ext; [|apply cint_minus; [apply cint_scal, H0|apply cint_scal, H1]]. intro t. cbn beta. ring. }
  assert (P1 : gB1 s = gJJ s + s * u * I1 - gp s * I2).
  { apply (cint_unique (fun z => Cexp (gE s z) + z * ((s * u - gp s * z) * Cexp (gE s z))) a b).
    - apply (cint_der (fun z => z * Cexp (gE s z))); [intro t; apply ge_dz1|]. intro t. eexists. apply cder_plus; [apply ge_dz|]. apply (cder_mult (fun z => RtoC z)); [apply cder_id|].
      apply (cder_mult (fun z => s * u - gp s * z)); [apply (cder_minus (fun _ => s * u)); [apply cder_const|apply cder_scal, cder_id]|apply ge_dz].
    - eapply cint_ext; [|apply cint_minus; [apply cint_plus; [apply H0|apply cint_scal, H1]|apply cint_scal, H2]]. intro t. cbn beta. ring. }
  apply (cint_param (fun s z => Cexp (gE s z)) (fun s z => (u * z + w * (z * z)) * Cexp (gE s z)) gJJ s a b).
  - intros x t. apply (cder_exp (fun y => gE y t) x), gE_ds.
  - intro t. apply c2_mult; [c2go|]. apply c2_exp. unfold gE. apply c2_minus; [c2go|]. 
    split; cbn; [|apply continuity_2d_pt_const]. apply continuity_2d_pt_mult; [apply continuity_2d_pt_mult; apply continuity_2d_pt_id2|apply continuity_2d_pt_const].
  - apply gJJ_int.
  - assert (E : gL' s * gJJ s + gbnd s = u * I1 + w * I2).
    { unfold gL', gbnd. rewrite P0, P1. field. now apply gp_nz. }
    rewrite E. eapply cint_ext; [|apply cint_plus; [apply cint_scal, H1|apply cint_scal, H2]]. intro t. cbn beta. ring.
Qed.
Lemma gp_der s : cder gp s (- (2 * w)).
Proof. unfold gp. eapply cder_eq; [|apply (cder_minus (fun _ => RtoC 1)); [apply cder_const|apply cder_scal; apply (cder_mult (fun s => RtoC s) (fun _ => w)); [apply cder_id|apply cder_const]]]. ring. Qed.
Lemma gL_der s : (0 <= s <= 1)%R -> cder gL s (gL' s).
Proof.
  intro Hs. assert (Hn := gp_nz s Hs). unfold gL. pose proof C2nz.
  assert (Hn2 : 2 * gp s <> 0) by (apply Cmult_neq_0; [apply C2nz|exact Hn]).
  eapply cder_eq; [|apply cder_minus; [apply (cder_mult (fun s => s * s * (u * u)) (fun s => / (2 * gp s)));
    [apply (cder_mult (fun s => s * s) (fun _ => u * u)); [apply (cder_mult (fun s => RtoC s)); apply cder_id|apply cder_const]
    |apply (cder_inv (fun s => 2 * gp s)); [exact Hn2|apply cder_scal, gp_der]]
   |apply (cder_mult (fun s => Cln (gp s)) (fun _ => / 2)); [apply cder_ln; [|apply gp_der]|apply cder_const]]].
  - unfold gL'. cbn beta. rewrite C2 in *. field. split; assumption.
  - generalize (gp_re s Hs) gc_pos. lra.
Qed.
Lemma gQ_der s : (0 <= s <= 1)%R -> cder (fun s => gJJ s * Cexp (- gL s)) s (Cexp (- gL s) * gbnd s).
Proof.
  intro Hs. eapply cder_eq; [|apply cder_mult; [now apply gJJ_der|apply cder_exp; eapply cder_ext; [|apply (cder_scal (- (1)) gL); now apply gL_der]]].
  - cbn beta. ring.
  - intro t. cbn beta. ring.
Qed.
End Trunc.

Definition gtail (x : R) : R := ((1 + Rabs x) * exp (- (gc / 2) * x ^ 2 + Cmod u * Rabs x))%R.
Lemma gtail_nonneg x : (0 <= gtail x)%R.
Proof. unfold gtail. generalize (Rabs_pos x) (exp_pos (- (gc / 2) * x ^ 2 + Cmod u * Rabs x)). intros. apply Rmult_le_pos; lra. Qed.
Lemma gE_mod s z : (0 <= s <= 1)%R -> (Cmod (Cexp (gE s z)) <= exp (- (gc / 2) * z ^ 2 + Cmod u * Rabs z))%R.
Proof.
  intro Hs. rewrite Cexp_conj_mod. apply exp_le. unfold gE. cbn.
  assert (H1 : (s * (Re u * z) <= Cmod u * Rabs z)%R).
  { eapply Rle_trans; [apply Rle_abs|]. rewrite !Rabs_mult. generalize (Re_le_Cmod u) (Rabs_pos (Re u)) (Rabs_pos z). rewrite (Rabs_pos_eq s) by lra. intros. assert (Rabs (Re u) * Rabs z <= Cmod u * Rabs z)%R by (apply Rmult_le_compat_r; lra). assert (0 <= Rabs (Re u) * Rabs z)%R by (apply Rmult_le_pos; lra). nra. }
  assert (H2 : (s * (Re w * (z * z)) - z * z / 2 <= - (gc / 2) * (z * z))%R).
  { assert (s * Re w - 1 / 2 <= - (gc / 2))%R. { unfold gc. pose proof (Rmin_l 1 (1 - 2 * Re w)). pose proof (Rmin_r 1 (1 - 2 * Re w)). nra. } nra. }
  unfold Re, Im in *. lra.
Qed.
Lemma gp_mod s : (0 <= s <= 1)%R -> (gc <= Cmod (gp s))%R.
Proof. intro Hs. eapply Rle_trans; [apply (gp_re s Hs)|]. eapply Rle_trans; [apply Rle_abs|apply Re_le_Cmod]. Qed.
Lemma gp_inv_mod s : (0 <= s <= 1)%R -> (Cmod (/ gp s) <= / gc)%R.
Proof. intro Hs. rewrite Cmod_inv by now apply gp_nz. apply Rinv_le_contravar; [apply gc_pos|now apply gp_mod]. Qed.
Definition gML : R := (exp (Cmod u * Cmod u * / gc) * (2 + 2 * Cmod w))%R.
Lemma gp_up s : (0 <= s <= 1)%R -> (Cmod (gp s) <= 1 + 2 * Cmod w)%R.
Proof.
  intro Hs. unfold gp, Cminus. eapply Rle_trans; [apply Cmod_triangle|]. rewrite Cmod_opp, !Cmod_mult, !Cmod_R, (Rabs_pos_eq s), (Rabs_pos_eq 2), (Rabs_pos_eq 1) by lra.
  generalize (Cmod_ge_0 w). nra.
Qed.
Lemma Cexp_half_ln p : (0 < Re p)%R -> (Cmod (Cexp (Cln p / 2)) <= 1 + Cmod p)%R.
Proof.
  intro Hp. rewrite Cexp_conj_mod. assert (Hm : (0 < Cmod p)%R) by (eapply Rlt_le_trans; [exact Hp|]; eapply Rle_trans; [apply Rle_abs|apply Re_le_Cmod]).
  replace (Re (Cln p / 2)) with (ln (Cmod p) / 2)%R.
  2: { unfold Cln, Cmod, Re, Im. cbn. field. }
  rewrite <- (exp_ln (1 + Cmod p)) by lra. apply exp_le.
  destruct (Rle_lt_dec (Cmod p) 1).
  - assert (ln (Cmod p) <= 0)%R by (rewrite <- ln_1; apply ln_le; lra). assert (0 < ln (1 + Cmod p))%R by (rewrite <- ln_1; apply ln_increasing; lra). lra.
  - assert (0 < ln (Cmod p))%R by (rewrite <- ln_1; apply ln_increasing; lra). assert (ln (Cmod p) < ln (1 + Cmod p))%R by (apply ln_increasing; lra). lra.
Qed.
Lemma gL_mod s : (0 <= s <= 1)%R -> (Cmod (Cexp (- gL s)) <= gML)%R.
Proof.
  intro Hs. unfold gL. replace (- (_ - _)) with (- (s * s * (u * u) / (2 * gp s)) + Cln (gp s) / 2) by ring.
  rewrite Cexp_plus, Cmod_mult. unfold gML. apply Rmult_le_compat; try apply Cmod_ge_0.
  - rewrite Cexp_conj_mod. apply exp_le. eapply Rle_trans; [apply Rle_abs|]. eapply Rle_trans; [apply Re_le_Cmod|]. rewrite Cmod_opp. unfold Cdiv.
    assert (EI : / (2 * gp s) = / 2 * / gp s) by (pose proof (gp_nz s Hs); pose proof C2nz; field; split; assumption). rewrite EI.
    rewrite !Cmod_mult, Cmod_R, (Rabs_pos_eq s) by lra. rewrite Cmod_inv by apply C2nz. rewrite Cmod_R, (Rabs_pos_eq 2) by lra.
    generalize (gp_inv_mod s Hs) (Cmod_ge_0 u) (Cmod_ge_0 (/ gp s)) gc_pos. intros. 
    assert (0 <= Cmod u * Cmod u)%R by nra. assert (0 <= s * s <= 1)%R by nra.
    assert (X : (Cmod u * Cmod u * Cmod (/ gp s) <= Cmod u * Cmod u * / gc)%R) by (apply Rmult_le_compat_l; lra).
    assert (0 <= Cmod u * Cmod u * Cmod (/ gp s))%R by (apply Rmult_le_pos; lra).
    replace (s * s * (Cmod u * Cmod u) * (/ 2 * Cmod (/ gp s)))%R with (s * s * (/ 2) * (Cmod u * Cmod u * Cmod (/ gp s)))%R by ring. nra.
  - eapply Rle_trans; [apply Cexp_half_ln; generalize (gp_re s Hs) gc_pos; lra|]. generalize (gp_up s Hs). lra.
Qed.
Definition gMB : R := (Cmod u * / gc + Cmod w * / gc * (Cmod u * / gc + 1))%R.
Lemma gbnd_mod a b s : (0 <= s <= 1)%R -> (Cmod (gbnd a b s) <= gMB * (gtail a + gtail b))%R.
Proof.
  intro Hs. pose proof gc_pos as Hg. assert (Hig : (0 < / gc)%R) by now apply Rinv_0_lt_compat. pose proof (gp_inv_mod s Hs) as Hp. pose proof (Cmod_ge_0 u). pose proof (Cmod_ge_0 w).
  assert (T : forall x, (Cmod (Cexp (gE s x)) <= gtail x)%R /\ (Cmod (x * Cexp (gE s x))%C <= gtail x)%R).
  { intro x. generalize (gE_mod s x Hs) (Rabs_pos x) (exp_pos (- (gc / 2) * x ^ 2 + Cmod u * Rabs x)). intros X1 X2 X3. unfold gtail. rewrite Cmod_mult, Cmod_R. split; [nra|]. 
    generalize (Cmod_ge_0 (Cexp (gE s x))). intro. nra. }
  destruct (T a) as [Ta0 Ta1], (T b) as [Tb0 Tb1].
  assert (HB0 : (Cmod (gB0 a b s) <= gtail a + gtail b)%R).
  { unfold gB0, Cminus. eapply Rle_trans; [apply Cmod_triangle|]. rewrite Cmod_opp. lra. }
  assert (HB1 : (Cmod (gB1 a b s) <= gtail a + gtail b)%R).
  { unfold gB1, Cminus. eapply Rle_trans; [apply Cmod_triangle|]. rewrite Cmod_opp. lra. }
  set (t := (gtail a + gtail b)%R) in *. pose proof (Cmod_ge_0 (gB0 a b s)). pose proof (Cmod_ge_0 (gB1 a b s)).
  assert (Q1 : (Cmod (u * gB0 a b s / gp s)%C <= Cmod u * / gc * t)%R).
  { unfold Cdiv. rewrite !Cmod_mult. replace (Cmod u * / gc * t)%R with (Cmod u * t * / gc)%R by ring. apply Rmult_le_compat; try apply Cmod_ge_0; [apply Rmult_le_pos; lra| |exact Hp]. apply Rmult_le_compat_l; lra. }
  assert (Q2 : (Cmod (w * (s * u * gB0 a b s / gp s + gB1 a b s) / gp s)%C <= Cmod w * / gc * (Cmod u * / gc + 1) * t)%R).
  { unfold Cdiv at 1. rewrite !Cmod_mult. replace (Cmod w * / gc * (Cmod u * / gc + 1) * t)%R with (Cmod w * (Cmod u * / gc * t + t) * / gc)%R by ring.
    apply Rmult_le_compat; try apply Cmod_ge_0; [apply Rmult_le_pos; apply Cmod_ge_0| |exact Hp]. apply Rmult_le_compat_l; [lra|].
    eapply Rle_trans; [apply Cmod_triangle|]. apply Rplus_le_compat; [|exact HB1].
    replace (s * u * gB0 a b s / gp s) with (s * (u * gB0 a b s / gp s)) by (unfold Cdiv; ring). rewrite Cmod_mult, Cmod_R, Rabs_pos_eq by lra. generalize (Cmod_ge_0 (u * gB0 a b s / gp s)). intro. nra. }
  unfold gbnd, Cminus. eapply Rle_trans; [apply Cmod_triangle|]. rewrite !Cmod_opp. unfold gMB. lra.
Qed.
Lemma gJ_near a b : (Cmod (gJJ a b 1 * Cexp (- gL 1) - gJJ a b 0 * Cexp (- gL 0))%C <= 2 * (gML * (gMB * (gtail a + gtail b))))%R.
Proof.
  apply (cder_mvt (fun s => gJJ a b s * Cexp (- gL s)) (fun s => Cexp (- gL s) * gbnd a b s)).
  - intros t Ht. now apply gQ_der.
  - intros t Ht. rewrite Cmod_mult. apply Rmult_le_compat; try apply Cmod_ge_0; [now apply gL_mod|now apply gbnd_mod].
Qed.
Lemma gL_0 : gL 0 = 0.
Proof.
  assert (E : gp 0 = 1) by (unfold gp; ring). unfold gL. rewrite E. 
  assert (EL : Cln 1 = 0). { unfold Cln. apply C_ext; cbn; [replace (1 * (1 * 1) + 0 * (0 * 1))%R with 1%R by ring; now rewrite sqrt_1, ln_1|replace (0 / 1)%R with 0%R by field; apply atan_0]. }
  rewrite EL. pose proof C2nz. field. assumption.
Qed.
Lemma gJ_0 a b : gJJ a b 0 = RtoC (sqrt (2 * PI) * (Phi b - Phi a)).
Proof.
  apply (cint_unique (fun z => Cexp (gE 0 z)) a b); [apply gJJ_int|].
  assert (Hq : (0 < sqrt (2 * PI))%R) by (apply sqrt_lt_R0; generalize PI_RGT_0; lra).
  apply (cint_ext (fun z => RtoC (sqrt (2 * PI) * npdf z))).
  { intro z. unfold gE. replace (0 * _ - _) with (RtoC (- (z ^ 2) / 2)); [|apply C_ext; cbn; [field|ring]]. rewrite Cexp_real. f_equal. unfold npdf. field. lra. }
  split; cbn.
  - apply (is_RInt_scal (V := R_NormedModule) npdf a b (sqrt (2 * PI)) (Phi b - Phi a)%R). apply (is_RInt_derive (V := R_CompleteNormedModule) Phi npdf); intros; [apply Phi_derive|apply npdf_cont].
  - evar_last; [apply (is_RInt_const (V := R_NormedModule))|]. unfold scal. cbn. unfold mult. cbn. eqR. ring.
Qed.
Lemma gtail_lim eps : (0 < eps)%R -> exists M, forall x, (M < Rabs x)%R -> (gtail x < eps)%R.
Proof.
  intro He. pose proof gc_pos as Hg. set (k := (gc / 4)%R). assert (Hk : (0 < k)%R) by (unfold k; lra).
  exists (1 + Cmod u / k + 2 / (k * eps))%R. intros x Hx. set (m := Rabs x) in *.
  assert (Hd : (0 <= Cmod u / k)%R) by (apply Rmult_le_pos; [apply Cmod_ge_0|left; now apply Rinv_0_lt_compat]).
  assert (Hke : (0 < k * eps)%R) by now apply Rmult_lt_0_compat. assert (H2 : (0 < 2 / (k * eps))%R) by (apply Rdiv_lt_0_compat; lra).
  assert (Hm1 : (1 < m)%R) by lra. assert (Hmu : (Cmod u < k * m)%R). { apply Rmult_lt_reg_r with (/ k)%R; [now apply Rinv_0_lt_compat|]. replace (k * m * / k)%R with m by (field; lra). unfold Rdiv in *. lra. }
  assert (Hme : (2 < k * eps * m)%R). { apply Rmult_lt_reg_r with (/ (k * eps))%R; [now apply Rinv_0_lt_compat|]. replace (k * eps * m * / (k * eps))%R with m by (field; lra). unfold Rdiv in *. lra. }
  unfold gtail. fold m. replace (x ^ 2)%R with (m ^ 2)%R by (unfold m; apply pow2_abs).
  assert (HX : (exp (- (gc / 2) * m ^ 2 + Cmod u * m) <= exp (- (k * m ^ 2)))%R).
  { apply exp_le. replace (gc / 2)%R with (2 * k)%R by (unfold k; lra). nra. }
  assert (HY : (exp (- (k * m ^ 2)) * (k * m ^ 2) < 1)%R).
  { assert (0 < k * m ^ 2)%R by (apply Rmult_lt_0_compat; nra). rewrite exp_Ropp. generalize (exp_ineq1 (k * m ^ 2) ltac:(lra)). intro.
    apply Rmult_lt_reg_l with (exp (k * m ^ 2)); [apply exp_pos|]. rewrite <- Rmult_assoc, Rinv_r by (generalize (exp_pos (k * m ^ 2)); lra). lra. }
  apply Rle_lt_trans with ((1 + m) * exp (- (k * m ^ 2)))%R; [apply Rmult_le_compat_l; lra|].
  set (e := exp (- (k * m ^ 2))) in *. assert (0 < e)%R by apply exp_pos.
  apply Rlt_trans with (2 * m * e)%R; [apply Rmult_lt_compat_r; lra|].
  apply Rmult_lt_reg_l with (k * m)%R; [apply Rmult_lt_0_compat; lra|].
  replace (k * m * (2 * m * e))%R with (2 * (e * (k * m ^ 2)))%R by ring. replace (k * m * eps)%R with (k * eps * m)%R by ring. lra.
Qed.
End G.

(** convergence of the integral over the whole line *)
Definition cgint (f : R -> C) (v : C) : Prop :=
  forall eps, (0 < eps)%R -> exists M, forall a b, (a < - M)%R -> (M < b)%R -> exists I0, cint f a b I0 /\ (Cmod (I0 - v)%C < eps)%R.

Theorem cgauss u w : (2 * Re w < 1)%R ->
  cgint (fun z => Cexp (u * z + w * (z * z)) * npdf z) (Cexp (u * u / (2 * (1 - 2 * w)) - Cln (1 - 2 * w) / 2)).
Proof.
  intros Hw eps He. set (q := sqrt (2 * PI)). assert (Hq : (0 < q)%R) by (apply sqrt_lt_R0; generalize PI_RGT_0; lra).
  assert (EL : Cexp (u * u / (2 * (1 - 2 * w)) - Cln (1 - 2 * w) / 2) = Cexp (gL u w 1)).
  { unfold gL, gp. f_equal. replace (1 - 2 * (1 * w)) with (1 - 2 * w) by ring. unfold Cdiv. ring. }
  rewrite EL. set (X := Cexp (gL u w 1)). set (m := Cmod X). assert (Hm : (0 < m)%R) by (unfold m, X; rewrite Cexp_conj_mod; apply exp_pos).
  set (K := (2 * (gML u w * gMB u w) + 1)%R).
  assert (HK : (0 < K)%R).
  { unfold K, gML, gMB. pose proof (gc_pos w Hw). assert (0 < / gc w)%R by now apply Rinv_0_lt_compat. pose proof (Cmod_ge_0 u). pose proof (Cmod_ge_0 w). pose proof (exp_pos (Cmod u * Cmod u * / gc w)).
    assert (0 <= exp (Cmod u * Cmod u * / gc w) * (2 + 2 * Cmod w))%R by (apply Rmult_le_pos; lra).
    assert (0 <= Cmod u * / gc w)%R by (apply Rmult_le_pos; lra). assert (0 <= Cmod w * / gc w)%R by (apply Rmult_le_pos; lra).
    assert (0 <= Cmod w * / gc w * (Cmod u * / gc w + 1))%R by (apply Rmult_le_pos; lra).
    assert (0 <= exp (Cmod u * Cmod u * / gc w) * (2 + 2 * Cmod w) * (Cmod u * / gc w + Cmod w * / gc w * (Cmod u * / gc w + 1)))%R by (apply Rmult_le_pos; lra). lra. }
  set (e1 := (q * eps / (4 * m * K))%R). assert (He1 : (0 < e1)%R) by (apply Rdiv_lt_0_compat; [nra|]; apply Rmult_lt_0_compat; lra).
  destruct (gtail_lim u w Hw e1 He1) as (M1 & HM1).
  set (e2 := (eps / (4 * m))%R). assert (He2 : (0 < e2)%R) by (apply Rdiv_lt_0_compat; lra).
  destruct (Phi_near_1 e2 He2) as (M2 & HM2).
  exists (Rmax 0 (Rmax M1 M2)). intros a b Ha Hb. pose proof (Rmax_l 0 (Rmax M1 M2)). pose proof (Rmax_r 0 (Rmax M1 M2)). pose proof (Rmax_l M1 M2). pose proof (Rmax_r M1 M2).
  exists (/ q * gJJ u w a b 1). split.
  - apply (cint_ext (fun z => / q * Cexp (gE u w 1 z))); [|apply cint_scal, gJJ_int].
    intro z. assert (EE : gE u w 1 z = (u * z + w * (z * z)) + RtoC (- (z ^ 2) / 2)).
    { unfold gE. apply C_ext; cbn; field. }
    rewrite EE, Cexp_plus, Cexp_real. assert (EN : RtoC (npdf z) = RtoC (exp (- (z ^ 2) / 2)) * / RtoC q). { unfold npdf. fold q. rewrite RtoC_div by lra. reflexivity. }
    rewrite EN. ring.
  - assert (Ta := HM1 a ltac:(rewrite Rabs_left; lra)). assert (Tb := HM1 b ltac:(rewrite Rabs_right; lra)).
    assert (Pb := HM2 b ltac:(lra)). assert (Pa := HM2 (- a)%R ltac:(lra)). rewrite Phi_opp in Pa.
    pose proof (Phi_lt_1 b). pose proof (Phi_gt_0 a).
    assert (HN := gJ_near u w Hw a b). rewrite gL_0 in HN. rewrite gJ_0 in HN. fold q in HN. rewrite Copp_0, Cexp_0, Cmult_1_r in HN.
    set (Y := gJJ u w a b 1) in *. set (Xi := Cexp (- gL u w 1)) in *. assert (HXi : X * Xi = 1) by apply Cexp_neg.
    assert (Hqc : RtoC q <> 0) by (intro E; injection E; lra).
    replace (/ q * Y - X) with (/ q * X * ((Y * Xi - RtoC (q * (Phi b - Phi a))) + RtoC (q * (Phi b - Phi a - 1)))).
    2: { rewrite RtoC_mult, RtoC_mult, !RtoC_minus. replace (/ q * X * _) with (/ q * (Y * (X * Xi)) - X * (q * / q)) by ring. rewrite HXi, Cinv_r by exact Hqc. ring. }
    rewrite !Cmod_mult, Cmod_inv by exact Hqc. rewrite Cmod_R, Rabs_pos_eq by lra. fold m.
    set (Z := Cmod (_ + _)). assert (HZ : (Z < q * eps / m)%R).
    { unfold Z. eapply Rle_lt_trans; [apply Cmod_triangle|]. rewrite Cmod_R, (Rabs_left (q * (Phi b - Phi a - 1))) by nra.
      assert (Z1 : (- (q * (Phi b - Phi a - 1)) < q * (2 * e2))%R) by nra.
      assert (Z2 : (2 * (gML u w * (gMB u w * (gtail u w a + gtail u w b))) <= K * (2 * e1))%R).
      { pose proof (gtail_nonneg u w a). pose proof (gtail_nonneg u w b). unfold K in *. 
        replace (2 * (gML u w * (gMB u w * (gtail u w a + gtail u w b))))%R with ((2 * (gML u w * gMB u w)) * (gtail u w a + gtail u w b))%R by ring. nra. }
      replace (q * eps / m)%R with (K * (2 * e1) + q * (2 * e2))%R by (unfold e1, e2; field; lra). lra. }
    apply Rlt_le_trans with (/ q * m * (q * eps / m))%R; [apply Rmult_lt_compat_l; [apply Rmult_lt_0_compat; [now apply Rinv_0_lt_compat|lra]|exact HZ]|].
    right. field. lra.
Qed.

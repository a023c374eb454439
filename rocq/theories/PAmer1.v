(** Backward recursions with early exercise: comparison with exercise at few dates, and convergence as the steps get finer. *)
From Coq Require Import Reals Arith Lra Lia.
From Coquelicot Require Import Coquelicot.
Open Scope R_scope.

Section It.
Context {X : Type}.
Fixpoint it (k : nat) (T : (X -> R) -> X -> R) (f : X -> R) : X -> R := match k with O => f | S k' => T (it k' T f) end.
(** exercise allowed at every step *)
Fixpoint AV (T : (X -> R) -> X -> R) (g : X -> R) (k : nat) : X -> R := match k with O => g | S k' => fun x => Rmax (T (AV T g k') x) (g x) end.
(** exercise allowed at the start of every block *)
Fixpoint BV (G : (X -> R) -> X -> R) (g : X -> R) (k : nat) : X -> R := match k with O => g | S k' => fun x => Rmax (g x) (G (BV G g k') x) end.
Definition mono (T : (X -> R) -> X -> R) := forall f h, (forall x, f x <= h x) -> forall x, T f x <= T h x.
Definition linear (T : (X -> R) -> X -> R) := forall f h u v x, T (fun y => u * f y + v * h y) x = u * T f x + v * T h x.

Lemma it_plus i j T f : it (i + j) T f = it i T (it j T f).
Proof. induction i as [|i IH]; [reflexivity|]. cbn. now rewrite IH. Qed.
Lemma it_mono T k f h : mono T -> (forall x, f x <= h x) -> forall x, it k T f x <= it k T h x.
Proof. intros M H. induction k as [|k IH]; [exact H|]. cbn. now apply M. Qed.
Lemma T_ext T f h : mono T -> (forall x, f x = h x) -> forall x, T f x = T h x.
Proof. intros M H x. apply Rle_antisym; apply M; intro y; rewrite H; lra. Qed.
Lemma it_ext T k f h : mono T -> (forall x, f x = h x) -> forall x, it k T f x = it k T h x.
Proof. intros M H x. apply Rle_antisym; apply it_mono; try exact M; intro y; rewrite H; lra. Qed.
Lemma it_lin T k : mono T -> linear T -> linear (it k T).
Proof.
  intros M L. induction k as [|k IH]; intros f h u v x; [reflexivity|]. cbn. rewrite <- L. apply (T_ext T _ _ M). intro y. apply IH.
Qed.
Lemma it_abs T k f h : mono T -> linear T -> (forall x, Rabs (f x) <= h x) -> forall x, Rabs (it k T f x) <= it k T h x.
Proof.
  intros M L H x. assert (LI := it_lin T k M L). apply Rabs_le. split.
  - replace (- it k T h x) with (-1 * it k T h x + 0 * it k T h x) by ring. rewrite <- LI. apply it_mono; [exact M|]. intro y. specialize (H y). apply Rabs_le_between in H. lra.
  - apply it_mono; [exact M|]. intro y. specialize (H y). apply Rabs_le_between in H. lra.
Qed.
Lemma it_weight T V lam k : mono T -> linear T -> 0 <= lam -> (forall x, T V x <= lam * V x) -> forall x, it k T V x <= lam ^ k * V x.
Proof.
  intros M L H0 H. induction k as [|k IH]; intro x; cbn [it pow]; [lra|]. eapply Rle_trans; [apply M, IH|].
  rewrite (T_ext T _ (fun y => lam ^ k * V y + 0 * V y) M) by (intro; ring). rewrite L, Rmult_0_l, Rplus_0_r.
  replace (lam * lam ^ k * V x) with (lam ^ k * (lam * V x)) by ring. apply Rmult_le_compat_l; [now apply pow_le|apply H].
Qed.

Lemma AV_pay T g k x : g x <= AV T g k x.
Proof. destruct k; cbn; [lra|apply Rmax_r]. Qed.
Lemma AV_it T g i k : mono T -> forall x, it i T (AV T g k) x <= AV T g (i + k) x.
Proof.
  intro M. induction i as [|i IH]; intro x; cbn; [lra|]. eapply Rle_trans; [|apply Rmax_l]. apply M. exact IH.
Qed.
Lemma BV_pay G g k x : g x <= BV G g k x.
Proof. destruct k; cbn; [lra|apply Rmax_l]. Qed.
Lemma AV_ge T g q j i : mono T -> forall x, it i T (BV (it q T) g j) x <= AV T g (i + j * q) x.
Proof.
  intro M. assert (H : forall x, BV (it q T) g j x <= AV T g (j * q) x).
  { induction j as [|j IH]; intro x; [cbn; lra|]. cbn [BV]. apply Rmax_lub; [apply AV_pay|]. eapply Rle_trans; [apply (it_mono T q _ _ M IH)|]. apply (AV_it T g q (j * q) M). }
  intro x. eapply Rle_trans; [apply (it_mono T i _ _ M H)|]. now apply AV_it.
Qed.
Lemma AV_le T g q V lam e : mono T -> linear T -> 1 <= lam -> 0 <= e -> (forall x, 0 <= V x) -> (forall x, T V x <= lam * V x) ->
  (forall i x, (i <= q)%nat -> g x <= it i T g x + e * V x) ->
  forall j i x, (i <= q)%nat -> AV T g (i + j * q) x <= it i T (BV (it q T) g j) x + e * lam ^ (i + j * q) * V x.
Proof.
  intros M L Hl He HV HT Hg. assert (P : forall k, 1 <= lam ^ k) by (intro k; now apply pow_R1_Rle).
  induction j as [|j IHj].
  - intros i. induction i as [|i IHi]; intros x Hi.
    + cbn. pose proof (HV x). nra.
    + cbn [Nat.add AV it]. apply Rmax_lub.
      * eapply Rle_trans; [apply M; intro y; apply IHi; lia|]. cbn [Nat.add Nat.mul BV]. rewrite Nat.add_0_r.
        rewrite (T_ext T _ (fun y => 1 * it i T g y + (e * lam ^ i) * V y) M) by (intro; ring). rewrite L. cbn [pow]. pose proof (HT x).
        assert (0 <= e * lam ^ i) by (specialize (P i); nra). nra.
      * specialize (Hg (S i) x Hi). cbn [it BV] in *. pose proof (P (S (i + 0 * q))). pose proof (HV x). assert (e * V x <= e * lam ^ S (i + 0 * q) * V x) by (assert (0 <= e * V x) by nra; nra). lra.
  - intros i. induction i as [|i IHi]; intros x Hi.
    + specialize (IHj q x (Nat.le_refl q)). cbn [Nat.add Nat.mul it]. eapply Rle_trans; [exact IHj|]. apply Rplus_le_compat_r. cbn [BV]. apply Rmax_r.
    + cbn [Nat.add AV it]. apply Rmax_lub.
      * eapply Rle_trans; [apply M; intro y; apply IHi; lia|].
        rewrite (T_ext T _ (fun y => 1 * it i T (BV (it q T) g (S j)) y + (e * lam ^ (i + S j * q)) * V y) M) by (intro; ring). rewrite L. cbn [pow]. pose proof (HT x).
        assert (0 <= e * lam ^ (i + S j * q)) by (specialize (P (i + S j * q)%nat); nra). nra.
      * eapply Rle_trans; [apply (Hg (S i) x Hi)|]. apply Rplus_le_compat.
        -- apply (it_mono T (S i) g (BV (it q T) g (S j)) M). intro y. apply BV_pay.
        -- pose proof (P (S (i + S j * q))). pose proof (HV x). assert (0 <= e * V x) by nra. nra.
Qed.
End It.

Section Conv.
Context {X : Type}.
Variables (V : X -> R) (cls : R -> (X -> R) -> Prop) (T : nat -> (X -> R) -> X -> R) (G : R -> (X -> R) -> X -> R) (lam : nat -> R) (N0 : nat) (Cl CG t : R) (g : X -> R) (cg : R).
Hypothesis (Ht : 0 < t) (HV : forall x, 0 <= V x) (HCl : 0 <= Cl) (HCG : 0 <= CG).
Hypothesis HTm : forall n, (N0 <= n)%nat -> mono (T n).
Hypothesis HTl : forall n, (N0 <= n)%nat -> linear (T n).
Hypothesis Hlam : forall n, (N0 <= n)%nat -> 1 <= lam n /\ lam n ^ n <= Cl /\ forall x, T n V x <= lam n * V x.
Hypothesis Hclt : forall eps, 0 < eps -> exists N, forall n, (N <= n)%nat -> forall k, (k <= n)%nat -> forall c f, 0 <= c -> cls c f -> forall x,
  Rabs (it k (T n) f x - G (INR k * (t / INR n)) f x) <= eps * c * V x.
Hypothesis HGt : forall eps, 0 < eps -> exists d, 0 < d /\ forall u u', 0 <= u <= t -> 0 <= u' <= t -> Rabs (u - u') <= d -> forall c f, 0 <= c -> cls c f -> forall x,
  Rabs (G u f x - G u' f x) <= eps * c * V x.
Hypothesis HG0 : forall c f, cls c f -> forall x, G 0 f x = f x.
Hypothesis HGc : forall u, 0 <= u <= t -> forall c f, 0 <= c -> cls c f -> cls (CG * c) (G u f).
Hypothesis Hmax : forall c c' f h, 0 <= c -> 0 <= c' -> cls c f -> cls c' h -> cls (c + c') (fun x => Rmax (f x) (h x)).
Hypothesis (Hcg : 0 <= cg) (Hg : cls cg g).

Definition B (m j : nat) : X -> R := BV (G (t / INR m)) g j.

Lemma tm m : (0 < m)%nat -> 0 <= t / INR m <= t.
Proof.
  intro Hm. assert (1 <= INR m) by (change 1 with (INR 1); apply le_INR; lia). split; [apply Rlt_le, Rdiv_lt_0_compat; lra|].
  apply Rmult_le_reg_r with (INR m); [lra|]. unfold Rdiv. rewrite Rmult_assoc, Rinv_l by lra. nra.
Qed.
Lemma kt n k : (k <= n)%nat -> (0 < n)%nat -> 0 <= INR k * (t / INR n) <= t.
Proof.
  intros Hk Hn. assert (0 < INR n) by now apply lt_0_INR. assert (INR k <= INR n) by now apply le_INR. pose proof (pos_INR k). assert (0 < t / INR n) by now apply Rdiv_lt_0_compat.
  split; [nra|]. apply Rle_trans with (INR n * (t / INR n)); [nra|]. right. field. lra.
Qed.
Lemma B_cls m j : (0 < m)%nat -> exists c, 0 <= c /\ cls c (B m j).
Proof.
  intro Hm. induction j as [|j (c & Hc & IH)]; [now exists cg|]. exists (cg + CG * c). assert (0 <= CG * c) by nra. split; [lra|]. apply Hmax; try assumption. apply HGc; [now apply tm|exact Hc|exact IH].
Qed.

Lemma block_time m n : (0 < m)%nat -> (0 < n)%nat -> Rabs (INR (n / m) * (t / INR n) - t / INR m) <= t / INR n.
Proof.
  intros Hm Hn. assert (HI : 0 < INR n) by now apply lt_0_INR. assert (HM : 0 < INR m) by now apply lt_0_INR. pose proof (Nat.div_mod n m ltac:(lia)) as E. pose proof (Nat.mod_upper_bound n m ltac:(lia)) as U.
  set (q := (n / m)%nat) in *. set (s := (n mod m)%nat) in *. assert (E' : INR n = INR m * INR q + INR s) by (rewrite E at 1; now rewrite plus_INR, mult_INR).
  assert (Us : 0 <= INR s <= INR m) by (split; [apply pos_INR|apply le_INR; lia]).
  replace (INR q * (t / INR n) - t / INR m) with (- (INR s / INR m) * (t / INR n))
    by (replace (INR s) with (INR n - INR m * INR q) by lra; field; lra).
  rewrite Rabs_mult, Rabs_Ropp. assert (0 <= INR s / INR m <= 1).
  { split; [apply Rmult_le_pos; [lra|apply Rlt_le, Rinv_0_lt_compat; lra]|]. apply Rmult_le_reg_r with (INR m); [lra|]. unfold Rdiv. rewrite Rmult_assoc, Rinv_l by lra. lra. }
  assert (0 < t / INR n) by now apply Rdiv_lt_0_compat. rewrite !Rabs_pos_eq by lra. nra.
Qed.
Lemma small_step d : 0 < d -> exists N, forall n, (N <= n)%nat -> (0 < n)%nat /\ t / INR n <= d.
Proof.
  intro Hd. destruct (nfloor_ex (t / d)) as (N & _ & HN); [apply Rlt_le, Rdiv_lt_0_compat; lra|]. exists (S N). intros n Hn. split; [lia|].
  assert (INR N + 1 <= INR n) by (rewrite <- S_INR; now apply le_INR). assert (0 < INR n) by (pose proof (pos_INR N); lra).
  apply Rmult_le_reg_r with (INR n); [lra|]. replace (t / INR n * INR n) with (d * (t / d)) by (field; lra). apply Rmult_le_compat_l; lra.
Qed.

Lemma BV_cls u j : 0 <= u <= t -> exists c, 0 <= c /\ cls c (BV (G u) g j).
Proof.
  intro Hu. induction j as [|j (c & Hc & IH)]; [now exists cg|]. exists (cg + CG * c). assert (0 <= CG * c) by nra. split; [lra|]. apply Hmax; try assumption. now apply HGc.
Qed.
(** blocks of [qs n] steps, whose duration tends to [u] *)
Lemma Bermudan_gen u (qs : nat -> nat) : 0 <= u <= t -> (forall n, (qs n <= n)%nat) -> (forall d, 0 < d -> exists N, forall n, (N <= n)%nat -> (0 < n)%nat /\ Rabs (INR (qs n) * (t / INR n) - u) <= d) ->
  forall j eps, 0 < eps -> exists N, forall n, (N <= n)%nat -> forall x, Rabs (BV (it (qs n) (T n)) g j x - BV (G u) g j x) <= eps * V x.
Proof.
  intros Hu Hqs Hqu. induction j as [|j IH]; intros eps He.
  - exists O. intros n _ x. cbn. rewrite Rminus_eq_0, Rabs_R0. pose proof (HV x). nra.
  - destruct (BV_cls u j Hu) as (c & Hc & HB). set (e1 := eps / (4 * (c + 1))). assert (He1 : 0 < e1) by (apply Rdiv_lt_0_compat; lra).
    assert (Ec : e1 * c <= eps / 4).
    { unfold e1. replace (eps / (4 * (c + 1)) * c) with (eps / 4 * (c / (c + 1))) by (field; lra). assert (c / (c + 1) <= 1) by (apply Rmult_le_reg_r with (c + 1); [lra|]; unfold Rdiv; rewrite Rmult_assoc, Rinv_l by lra; lra). nra. }
    destruct (HGt e1 He1) as (d & Hd & D). destruct (Hqu d Hd) as (N1 & H1). destruct (Hclt e1 He1) as (N2 & H2).
    set (e2 := eps / (2 * (Cl + 1))). assert (He2 : 0 < e2) by (apply Rdiv_lt_0_compat; lra). destruct (IH e2 He2) as (N3 & H3).
    assert (El : e2 * Cl <= eps / 2).
    { unfold e2. replace (eps / (2 * (Cl + 1)) * Cl) with (eps / 2 * (Cl / (Cl + 1))) by (field; lra). assert (Cl / (Cl + 1) <= 1) by (apply Rmult_le_reg_r with (Cl + 1); [lra|]; unfold Rdiv; rewrite Rmult_assoc, Rinv_l by lra; lra). nra. }
    exists (N0 + N1 + N2 + N3)%nat. intros n Hn x. destruct (H1 n ltac:(lia)) as [Hn0 Hnd]. specialize (H2 n ltac:(lia)). specialize (H3 n ltac:(lia)).
    assert (Hn' : (N0 <= n)%nat) by lia. assert (M := HTm n Hn'). assert (L := HTl n Hn'). destruct (Hlam n Hn') as (Hl1 & HlC & HlV).
    set (q := qs n) in *. assert (Hq : (q <= n)%nat) by apply Hqs.
    assert (LI := it_lin (T n) q M L).
    assert (A1 : Rabs (it q (T n) (BV (it q (T n)) g j) x - it q (T n) (BV (G u) g j) x) <= eps / 2 * V x).
    { replace (it q (T n) (BV (it q (T n)) g j) x - it q (T n) (BV (G u) g j) x) with (1 * it q (T n) (BV (it q (T n)) g j) x + -1 * it q (T n) (BV (G u) g j) x) by ring. rewrite <- LI.
      eapply Rle_trans; [apply (it_abs (T n) q _ (fun y => e2 * V y + 0 * V y) M L)|].
      - intro y. specialize (H3 y). replace (1 * BV (it q (T n)) g j y + -1 * BV (G u) g j y) with (BV (it q (T n)) g j y - BV (G u) g j y) by ring. lra.
      - rewrite LI, Rmult_0_l, Rplus_0_r. pose proof (it_weight (T n) V (lam n) q M L ltac:(lra) HlV x) as W.
        assert (lam n ^ q <= Cl) by (eapply Rle_trans; [|exact HlC]; now apply Rle_pow). pose proof (HV x). assert (it q (T n) V x <= Cl * V x) by nra. assert (0 <= it q (T n) V x).
        { assert (Z : forall x, it q (T n) (fun _ => 0) x = 0). { intro z. rewrite (it_ext (T n) q _ (fun y => 0 * V y + 0 * V y) M) by (intro; ring). rewrite LI. ring. }
          rewrite <- (Z x). apply it_mono; assumption. }
        apply Rle_trans with (e2 * (Cl * V x)); [nra|]. rewrite <- Rmult_assoc. nra. }
    assert (A2 := H2 q Hq c (BV (G u) g j) Hc HB x). assert (A3 := D (INR q * (t / INR n)) u (kt n q Hq Hn0) Hu Hnd c (BV (G u) g j) Hc HB x).
    cbn [BV].
    assert (E : forall y z w, Rabs (y - z) <= w -> Rabs (Rmax (g x) y - Rmax (g x) z) <= w).
    { intros y z w. unfold Rmax, Rabs. repeat match goal with |- context [Rle_dec ?a ?b] => destruct (Rle_dec a b) | |- context [Rcase_abs ?a] => destruct (Rcase_abs a) end; lra. }
    apply E. pose proof (HV x). assert (e1 * c * V x <= eps / 4 * V x) by (apply Rmult_le_compat_r; lra).
    apply Rabs_le_between in A1, A2, A3. apply Rabs_le. split; lra.
Qed.

Lemma Bermudan_close m : (0 < m)%nat -> forall j eps, 0 < eps -> exists N, forall n, (N <= n)%nat -> forall x, Rabs (BV (it (n / m) (T n)) g j x - B m j x) <= eps * V x.
Proof.
  intros Hm. apply (Bermudan_gen (t / INR m) (fun n => n / m)%nat (tm m Hm)).
  - intro n. destruct n; [rewrite Nat.div_0_l by lia; lia|]. apply Nat.div_le_upper_bound; [lia|nia].
  - intros d Hd. destruct (small_step d Hd) as (N & HN). exists N. intros n Hn. destruct (HN n Hn) as [H0 H1]. split; [exact H0|]. exact (Rle_trans _ _ _ (block_time m n Hm H0) H1).
Qed.

Lemma osc eps : 0 < eps -> exists m0, forall m, (m0 <= m)%nat -> exists N, forall n, (N <= n)%nat -> forall i x, (i <= n / m)%nat -> g x <= it i (T n) g x + eps * V x.
Proof.
  intro He. set (e1 := eps / (2 * (cg + 1))). assert (He1 : 0 < e1) by (apply Rdiv_lt_0_compat; lra).
  assert (Ec : e1 * cg <= eps / 2).
  { unfold e1. replace (eps / (2 * (cg + 1)) * cg) with (eps / 2 * (cg / (cg + 1))) by (field; lra). assert (cg / (cg + 1) <= 1) by (apply Rmult_le_reg_r with (cg + 1); [lra|]; unfold Rdiv; rewrite Rmult_assoc, Rinv_l by lra; lra). nra. }
  destruct (HGt e1 He1) as (d & Hd & D). destruct (small_step d Hd) as (m0 & Hm0). destruct (Hclt e1 He1) as (N2 & H2). exists m0. intros m Hm. destruct (Hm0 m Hm) as [Hmp Hmd]. exists (S N2). intros n Hn i x Hi.
  assert (Hq : (n / m <= n)%nat) by (apply Nat.div_le_upper_bound; [lia|nia]). assert (A2 := H2 n ltac:(lia) i ltac:(lia) cg g Hcg Hg x).
  assert (Ti : 0 <= INR i * (t / INR n) <= d).
  { split; [apply kt; lia|]. eapply Rle_trans; [|exact Hmd]. assert (0 < INR n) by (apply lt_0_INR; lia). assert (0 < INR m) by now apply lt_0_INR.
    assert (INR m * INR i <= INR n). { rewrite <- mult_INR. apply le_INR. pose proof (Nat.mul_div_le n m ltac:(lia)). nia. }
    apply Rmult_le_reg_r with (INR m * INR n); [nra|]. replace (INR i * (t / INR n) * (INR m * INR n)) with (t * (INR m * INR i)) by (field; lra). replace (t / INR m * (INR m * INR n)) with (t * INR n) by (field; lra). nra. }
  assert (A3 := D (INR i * (t / INR n)) 0 (kt n i ltac:(lia) ltac:(lia)) ltac:(lra) ltac:(rewrite Rminus_0_r, Rabs_pos_eq; lra) cg g Hcg Hg x). rewrite (HG0 cg g Hg x) in A3.
  pose proof (HV x). assert (e1 * cg * V x <= eps / 2 * V x) by (apply Rmult_le_compat_r; lra). apply Rabs_le_between in A2, A3. lra.
Qed.

Lemma start_close m x : (0 < m)%nat -> forall eps, 0 < eps -> exists N, forall n, (N <= n)%nat -> Rabs (it (n mod m) (T n) (BV (it (n / m) (T n)) g m) x - B m m x) <= eps.
Proof.
  intros Hm eps He. destruct (B_cls m m Hm) as (c & Hc & HB). set (Vx := V x + 1). assert (HVx : 0 < Vx) by (unfold Vx; pose proof (HV x); lra).
  set (e1 := eps / (4 * (c + 1) * Vx)). assert (He1 : 0 < e1) by (apply Rdiv_lt_0_compat; nra).
  assert (Ec : e1 * c * V x <= eps / 4).
  { apply Rle_trans with (e1 * (c + 1) * Vx); [|right; unfold e1; field; lra]. pose proof (HV x). apply Rmult_le_compat; [nra|lra|nra|unfold Vx; lra]. }
  destruct (HGt e1 He1) as (d & Hd & D). destruct (small_step (d / INR m)) as (N1 & H1); [apply Rdiv_lt_0_compat; [lra|now apply lt_0_INR]|]. destruct (Hclt e1 He1) as (N2 & H2).
  set (e2 := eps / (2 * (Cl + 1) * Vx)). assert (He2 : 0 < e2) by (apply Rdiv_lt_0_compat; nra). destruct (Bermudan_close m Hm m e2 He2) as (N3 & H3).
  assert (El : e2 * (Cl * V x) <= eps / 2).
  { apply Rle_trans with (e2 * ((Cl + 1) * Vx)); [|right; unfold e2; field; lra]. pose proof (HV x). apply Rmult_le_compat_l; [lra|]. unfold Vx. nra. }
  exists (N0 + N1 + N2 + N3 + m)%nat. intros n Hn. destruct (H1 n ltac:(lia)) as [Hn0 Hnd]. specialize (H2 n ltac:(lia)). specialize (H3 n ltac:(lia)).
  assert (Hn' : (N0 <= n)%nat) by lia. assert (M := HTm n Hn'). assert (L := HTl n Hn'). destruct (Hlam n Hn') as (Hl1 & HlC & HlV).
  set (q := (n / m)%nat) in *. set (s := (n mod m)%nat). assert (Hs : (s < m)%nat) by (apply Nat.mod_upper_bound; lia).
  assert (LI := it_lin (T n) s M L).
  assert (A1 : Rabs (it s (T n) (BV (it q (T n)) g m) x - it s (T n) (B m m) x) <= eps / 2).
  { replace (it s (T n) (BV (it q (T n)) g m) x - it s (T n) (B m m) x) with (1 * it s (T n) (BV (it q (T n)) g m) x + -1 * it s (T n) (B m m) x) by ring. rewrite <- LI.
    eapply Rle_trans; [apply (it_abs (T n) s _ (fun y => e2 * V y + 0 * V y) M L)|].
    - intro y. specialize (H3 y). replace (1 * BV (it q (T n)) g m y + -1 * B m m y) with (BV (it q (T n)) g m y - B m m y) by ring. lra.
    - rewrite LI, Rmult_0_l, Rplus_0_r. pose proof (it_weight (T n) V (lam n) s M L ltac:(lra) HlV x) as W.
      assert (lam n ^ s <= Cl) by (eapply Rle_trans; [|exact HlC]; apply Rle_pow; [lra|lia]). pose proof (HV x). assert (it s (T n) V x <= Cl * V x) by nra. eapply Rle_trans; [|exact El]. nra. }
  assert (A2 := H2 s ltac:(lia) c (B m m) Hc HB x).
  assert (Ts : 0 <= INR s * (t / INR n) <= d).
  { split; [apply kt; lia|]. assert (INR s <= INR m) by (apply le_INR; lia). assert (0 < INR m) by now apply lt_0_INR. assert (0 < INR n) by now apply lt_0_INR. assert (0 < t / INR n) by now apply Rdiv_lt_0_compat.
    apply Rle_trans with (INR m * (d / INR m)); [|right; field; lra]. pose proof (pos_INR s). nra. }
  assert (A3 := D (INR s * (t / INR n)) 0 (kt n s ltac:(lia) Hn0) ltac:(lra) ltac:(rewrite Rminus_0_r, Rabs_pos_eq; lra) c (B m m) Hc HB x). rewrite (HG0 c _ HB x) in A3.
  apply Rabs_le_between in A1, A2, A3. apply Rabs_le. split; lra.
Qed.

Lemma lower m x : (0 < m)%nat -> forall eps, 0 < eps -> exists N, forall n, (N <= n)%nat -> B m m x - eps <= AV (T n) g n x.
Proof.
  intros Hm eps He. destruct (start_close m x Hm eps He) as (N & HN). exists (N + N0)%nat. intros n Hn. specialize (HN n ltac:(lia)). assert (M := HTm n ltac:(lia)).
  pose proof (AV_ge (T n) g (n / m) m (n mod m) M x) as L. replace (n mod m + m * (n / m))%nat with n in L by (rewrite (Nat.div_mod n m) at 1 by lia; lia).
  apply Rabs_le_between in HN. lra.
Qed.
Lemma upper x eps : 0 < eps -> exists m0, forall m, (m0 <= m)%nat -> exists N, forall n, (N <= n)%nat -> AV (T n) g n x <= B m m x + eps.
Proof.
  intros He. set (Vx := V x + 1). assert (HVx : 0 < Vx) by (unfold Vx; pose proof (HV x); lra). set (e := eps / (2 * (Cl + 1) * Vx)). assert (He1 : 0 < e) by (apply Rdiv_lt_0_compat; nra).
  destruct (osc e He1) as (m0 & H0). exists (S m0). intros m Hm. destruct (H0 m ltac:(lia)) as (N1 & H1). destruct (start_close m x ltac:(lia) (eps / 2) ltac:(lra)) as (N2 & H2).
  exists (m * m + N1 + N2 + N0)%nat. intros n Hn. specialize (H1 n ltac:(lia)). specialize (H2 n ltac:(lia)). assert (Hn' : (N0 <= n)%nat) by lia. assert (M := HTm n Hn'). assert (L := HTl n Hn'). destruct (Hlam n Hn') as (Hl1 & HlC & HlV).
  assert (Hq : (m <= n / m)%nat) by (apply Nat.div_le_lower_bound; lia). assert (Hs : (n mod m < m)%nat) by (apply Nat.mod_upper_bound; lia).
  pose proof (AV_le (T n) g (n / m) V (lam n) e M L Hl1 ltac:(lra) HV HlV H1 m (n mod m) x ltac:(lia)) as U. replace (n mod m + m * (n / m))%nat with n in U by (rewrite (Nat.div_mod n m) at 1 by lia; lia).
  assert (El : e * lam n ^ n * V x <= eps / 2).
  { apply Rle_trans with (e * (Cl + 1) * Vx); [|right; unfold e; field; lra]. pose proof (HV x). assert (1 <= lam n ^ n) by now apply pow_R1_Rle. apply Rmult_le_compat; [nra|lra|nra|unfold Vx; lra]. }
  apply Rabs_le_between in H2. lra.
Qed.

Theorem american_limit x : exists v, (forall eps, 0 < eps -> exists N, forall n, (N <= n)%nat -> Rabs (AV (T n) g n x - v) < eps) /\
  (forall m, (0 < m)%nat -> B m m x <= v) /\ (forall eps, 0 < eps -> exists m0, forall m, (m0 <= m)%nat -> v - eps <= B m m x).
Proof.
  assert (Cau : Cauchy_crit (fun n => AV (T n) g n x)).
  { intros eps He. destruct (upper x (eps / 4) ltac:(lra)) as (m0 & U). destruct (U (S m0) ltac:(lia)) as (N1 & H1). destruct (lower (S m0) x ltac:(lia) (eps / 4) ltac:(lra)) as (N2 & H2).
    exists (N1 + N2)%nat. intros n n' Hn Hn'. unfold R_dist. pose proof (H1 n ltac:(lia)). pose proof (H1 n' ltac:(lia)). pose proof (H2 n ltac:(lia)). pose proof (H2 n' ltac:(lia)). apply Rabs_def1; lra. }
  destruct (Rcomplete.R_complete _ Cau) as (v & Hv). exists v. split; [|split].
  - intros eps He. destruct (Hv eps He) as (N & HN). exists N. intros n Hn. apply (HN n Hn).
  - intros m Hm. apply Rnot_lt_le. intro C. set (e := (B m m x - v) / 2). assert (He : 0 < e) by (unfold e; lra). destruct (lower m x Hm e He) as (N1 & H1). destruct (Hv e He) as (N2 & H2).
    specialize (H1 (N1 + N2)%nat ltac:(lia)). specialize (H2 (N1 + N2)%nat ltac:(lia)). unfold R_dist in H2. apply Rabs_def2 in H2. unfold e in *. lra.
  - intros eps He. destruct (upper x (eps / 2) ltac:(lra)) as (m0 & U). exists m0. intros m Hm. destruct (U m Hm) as (N1 & H1). destruct (Hv (eps / 2) ltac:(lra)) as (N2 & H2).
    specialize (H1 (N1 + N2)%nat ltac:(lia)). specialize (H2 (N1 + N2)%nat ltac:(lia)). unfold R_dist in H2. apply Rabs_def2 in H2. lra.
Qed.

(** ** exercise at other dates *)
Lemma AV_more (Tn : (X -> R) -> X -> R) k : mono Tn -> forall x, AV Tn g k x <= AV Tn g (S k) x.
Proof.
  intro M. induction k as [|k IH]; intro x; [apply (AV_pay Tn g 1 x)|]. change (Rmax (Tn (AV Tn g k) x) (g x) <= Rmax (Tn (AV Tn g (S k)) x) (g x)). apply Rle_max_compat_r. now apply M.
Qed.
Lemma AV_more' (Tn : (X -> R) -> X -> R) k k' : mono Tn -> (k <= k')%nat -> forall x, AV Tn g k x <= AV Tn g k' x.
Proof. intros M Hk x. induction Hk as [|k' Hk IH]; [lra|]. eapply Rle_trans; [exact IH|]. now apply AV_more. Qed.
Theorem any_dates x v : (forall eps, 0 < eps -> exists N, forall n, (N <= n)%nat -> Rabs (AV (T n) g n x - v) < eps) ->
  forall m u, 0 <= u -> INR m * u <= t -> BV (G u) g m x <= v.
Proof.
  intros Hv m u Hu0 Hmu. destruct m as [|m].
  { cbn [BV]. apply Rnot_lt_le. intro C. destruct (Hv (g x - v) ltac:(lra)) as (N & HN). specialize (HN N (Nat.le_refl N)). pose proof (AV_pay (T N) g N x). apply Rabs_def2 in HN. lra. }
  rewrite S_INR in Hmu. pose proof (pos_INR m) as HI. assert (Hu : 0 <= u <= t) by nra.
  set (qs := fun n : nat => Z.to_nat (Int_part (INR n * u / t))).
  assert (Q : forall n, 0 <= INR n * u / t /\ INR (qs n) <= INR n * u / t < INR (qs n) + 1).
  { intro n. assert (P : 0 <= INR n * u / t) by (apply Rmult_le_pos; [apply Rmult_le_pos; [apply pos_INR|lra]|apply Rlt_le, Rinv_0_lt_compat; lra]). split; [exact P|].
    destruct (base_Int_part (INR n * u / t)) as [B1 B2]. assert (Z0 : (0 <= Int_part (INR n * u / t))%Z). { apply Z.lt_succ_r. apply lt_IZR. rewrite succ_IZR. lra. }
    unfold qs. rewrite INR_IZR_INZ, Z2Nat.id by exact Z0. lra. }
  assert (Hq : forall n, (S m * qs n <= n)%nat).
  { intro n. apply INR_le. rewrite mult_INR, S_INR. destruct (Q n) as (P & P1 & _). pose proof (pos_INR n). apply Rle_trans with ((INR m + 1) * (INR n * u / t)); [apply Rmult_le_compat_l; lra|].
    replace ((INR m + 1) * (INR n * u / t)) with (INR n * ((INR m + 1) * u) / t) by (field; lra). apply Rmult_le_reg_r with t; [exact Ht|]. unfold Rdiv. rewrite Rmult_assoc, Rinv_l by lra. nra. }
  assert (Hqn : forall n, (qs n <= n)%nat) by (intro n; specialize (Hq n); nia).
  assert (Hqu : forall d, 0 < d -> exists N, forall n, (N <= n)%nat -> (0 < n)%nat /\ Rabs (INR (qs n) * (t / INR n) - u) <= d).
  { intros d Hd. destruct (small_step d Hd) as (N & HN). exists N. intros n Hn. destruct (HN n Hn) as [H0 H1]. split; [exact H0|]. eapply Rle_trans; [|exact H1]. assert (Hn0 : 0 < INR n) by now apply lt_0_INR. destruct (Q n) as (_ & P1 & P2).
    assert (Htn : 0 < t / INR n) by now apply Rdiv_lt_0_compat. replace u with (INR n * u / t * (t / INR n)) by (field; lra). rewrite <- Rmult_minus_distr_r, Rabs_mult, (Rabs_pos_eq (t / INR n)) by lra.
    assert (Rabs (INR (qs n) - INR n * u / t) <= 1) by (apply Rabs_le; lra). nra. }
  apply Rnot_lt_le. intro C. set (e := (BV (G u) g (S m) x - v) / 2). assert (He : 0 < e) by (unfold e; lra).
  set (Vx := V x + 1). assert (HVx : 0 < Vx) by (unfold Vx; pose proof (HV x); lra). destruct (Bermudan_gen u qs Hu Hqn Hqu (S m) (e / Vx)) as (N1 & H1); [now apply Rdiv_lt_0_compat|].
  destruct (Hv e He) as (N2 & H2). set (n := (N0 + N1 + N2)%nat). specialize (H1 n ltac:(unfold n; lia) x). specialize (H2 n ltac:(unfold n; lia)). assert (M := HTm n ltac:(unfold n; lia)).
  pose proof (AV_ge (T n) g (qs n) (S m) 0 M x) as L. change (BV (it (qs n) (T n)) g (S m) x <= AV (T n) g (S m * qs n) x) in L. pose proof (AV_more' (T n) _ _ M (Hq n) x) as L2.
  assert (EV : e / Vx * V x <= e). { apply Rle_trans with (e / Vx * Vx); [apply Rmult_le_compat_l; [apply Rlt_le, Rdiv_lt_0_compat; lra|unfold Vx; lra]|right; field; lra]. }
  apply Rabs_le_between in H1. apply Rabs_def2 in H2. unfold e in *. lra.
Qed.

(** ** the limit operators form a semigroup; no early exercise *)
Hypothesis HGm : forall u c f c' h, 0 <= u <= t -> 0 <= c -> 0 <= c' -> cls c f -> cls c' h -> (forall x, f x <= h x) -> forall x, G u f x <= G u h x.
Lemma itG_cls m j c f : (0 < m)%nat -> 0 <= c -> cls c f -> exists c', 0 <= c' /\ cls c' (it j (G (t / INR m)) f).
Proof.
  intros Hm Hc Hf. induction j as [|j (c' & Hc' & IH)]; [now exists c|]. exists (CG * c'). split; [nra|]. cbn [it]. apply HGc; [now apply tm|exact Hc'|exact IH].
Qed.
Lemma mt m N : (0 < m)%nat -> (0 < N)%nat -> forall j, INR (j * N) * (t / INR (m * N)) = INR j * (t / INR m).
Proof. intros Hm HN j. rewrite !mult_INR. assert (0 < INR m) by now apply lt_0_INR. assert (0 < INR N) by now apply lt_0_INR. field. lra. Qed.
Lemma two_blocks m j c f x : (0 < m)%nat -> (S j <= m)%nat -> 0 <= c -> cls c f -> G (t / INR m) (G (INR j * (t / INR m)) f) x = G (INR (S j) * (t / INR m)) f x.
Proof.
  intros Hm Hj Hc Hf. apply Rminus_diag_uniq. apply Rabs_eq_0. apply Rle_antisym; [|apply Rabs_pos]. apply Rnot_lt_le. intro Cn. set (a := Rabs _) in Cn.
  set (Vx := V x + 1). assert (HVx : 0 < Vx) by (unfold Vx; pose proof (HV x); lra). set (K := (CG * c + c + Cl * c + 1) * Vx). assert (HK : 0 < K) by (unfold K; apply Rmult_lt_0_compat; [|exact HVx]; assert (0 <= CG * c) by nra; assert (0 <= Cl * c) by nra; lra).
  set (e := a / (2 * K)). assert (He : 0 < e) by (apply Rdiv_lt_0_compat; lra). destruct (Hclt e He) as (N2 & H2). set (N := S (N0 + N2)). set (n := (m * N)%nat).
  assert (Hn : (N0 <= n)%nat /\ (N2 <= n)%nat /\ (S j * N <= n)%nat) by (unfold n, N; nia). destruct Hn as (Hn0 & Hn2 & HnS). assert (M := HTm n Hn0). assert (Li := HTl n Hn0). destruct (Hlam n Hn0) as (Hl1 & HlC & HlV). specialize (H2 n Hn2).
  assert (Eu := mt m N Hm ltac:(unfold N; lia)). fold n in Eu. assert (E1 : INR N * (t / INR n) = t / INR m) by (pose proof (Eu 1%nat) as E0; rewrite Nat.mul_1_l in E0; rewrite E0; cbn; ring).
  assert (Hu : 0 <= INR j * (t / INR m) <= t) by (apply kt; lia). set (h := G (INR j * (t / INR m)) f) in *. assert (Hh : cls (CG * c) h) by (apply HGc; assumption). assert (Hcc : 0 <= CG * c) by nra.
  assert (A1 := H2 (S j * N)%nat HnS c f Hc Hf x). rewrite Eu in A1. assert (A2 := H2 N ltac:(nia) (CG * c) h Hcc Hh x). rewrite E1 in A2.
  assert (LI := it_lin (T n) N M Li).
  assert (A3 : Rabs (it (S j * N) (T n) f x - it N (T n) h x) <= e * c * (Cl * V x)).
  { cbn [Nat.mul]. rewrite it_plus. replace (it N (T n) (it (j * N) (T n) f) x - it N (T n) h x) with (1 * it N (T n) (it (j * N) (T n) f) x + -1 * it N (T n) h x) by ring. rewrite <- LI.
    eapply Rle_trans; [apply (it_abs (T n) N _ (fun y => (e * c) * V y + 0 * V y) M Li)|].
    - intro y. assert (A4 := H2 (j * N)%nat ltac:(nia) c f Hc Hf y). rewrite Eu in A4. fold h in A4. replace (1 * it (j * N) (T n) f y + -1 * h y) with (it (j * N) (T n) f y - h y) by ring. lra.
    - rewrite LI, Rmult_0_l, Rplus_0_r. apply Rmult_le_compat_l; [nra|]. pose proof (it_weight (T n) V (lam n) N M Li ltac:(lra) HlV x) as W. assert (lam n ^ N <= Cl) by (eapply Rle_trans; [|exact HlC]; apply Rle_pow; [lra|nia]). pose proof (HV x). nra. }
  pose proof (HV x) as HVx0. assert (F : e * K = a / 2) by (unfold e; field; lra).
  assert (S1 : e * c * V x + e * (CG * c) * V x + e * c * (Cl * V x) <= e * K).
  { replace (e * c * V x + e * (CG * c) * V x + e * c * (Cl * V x)) with (e * ((CG * c + c + Cl * c) * V x)) by ring. apply Rmult_le_compat_l; [lra|]. unfold K. assert (0 <= Cl * c) by nra. apply Rmult_le_compat; [lra|exact HVx0|lra|unfold Vx; lra]. }
  assert (S2 : a <= e * c * V x + e * (CG * c) * V x + e * c * (Cl * V x)). { unfold a. apply Rabs_le_between in A1, A2, A3. apply Rabs_le. split; lra. }
  lra.
Qed.
Lemma semigroup m j c f : (0 < m)%nat -> (j <= m)%nat -> 0 <= c -> cls c f -> forall x, it j (G (t / INR m)) f x = G (INR j * (t / INR m)) f x.
Proof.
  intros Hm Hj Hc Hf. induction j as [|j IH]; intro x.
  - cbn [it INR]. rewrite Rmult_0_l. symmetry. exact (HG0 c f Hf x).
  - rewrite <- (two_blocks m j c f x Hm Hj Hc Hf). cbn [it]. destruct (itG_cls m j c f Hm Hc Hf) as (c' & Hc' & Hi).
    assert (Hu : 0 <= INR j * (t / INR m) <= t) by (apply kt; lia). assert (Hh : cls (CG * c) (G (INR j * (t / INR m)) f)) by (apply HGc; assumption). assert (Hcc : 0 <= CG * c) by nra. specialize (IH ltac:(lia)).
    apply Rle_antisym.
    + apply (HGm _ c' _ (CG * c) _ (tm m Hm)); try assumption. intro y. rewrite IH. lra.
    + apply (HGm _ (CG * c) _ c' _ (tm m Hm)); try assumption. intro y. rewrite IH. lra.
Qed.
(** when the payoff is never above what holding on for any time is worth, the value is that of exercise at the end *)
Theorem no_early_value x v : (forall u, 0 <= u <= t -> forall y, g y <= G u g y) ->
  (forall m, (0 < m)%nat -> B m m x <= v) -> (forall eps, 0 < eps -> exists m0, forall m, (m0 <= m)%nat -> v - eps <= B m m x) -> v = G t g x.
Proof.
  intros Hhold Hup Hlow.
  assert (BE : forall m j, (0 < m)%nat -> (j <= m)%nat -> forall y, B m j y = G (INR j * (t / INR m)) g y).
  { intros m j Hm. induction j as [|j IH]; intros Hj y.
    - cbn [INR]. rewrite Rmult_0_l. symmetry. exact (HG0 cg g Hg y).
    - specialize (IH ltac:(lia)). change (B m (S j) y) with (Rmax (g y) (G (t / INR m) (B m j) y)). rewrite <- (two_blocks m j cg g y Hm Hj Hcg Hg). destruct (B_cls m j Hm) as (c' & Hc' & Hi).
      assert (Hu : 0 <= INR j * (t / INR m) <= t) by (apply kt; lia). assert (Hh : cls (CG * cg) (G (INR j * (t / INR m)) g)) by (apply HGc; assumption). assert (Hcc : 0 <= CG * cg) by nra.
      assert (E : G (t / INR m) (B m j) y = G (t / INR m) (G (INR j * (t / INR m)) g) y).
      { apply Rle_antisym.
        + apply (HGm _ c' _ (CG * cg) _ (tm m Hm)); try assumption. intro z. rewrite IH. lra.
        + apply (HGm _ (CG * cg) _ c' _ (tm m Hm)); try assumption. intro z. rewrite IH. lra. }
      rewrite E. apply Rmax_right. eapply Rle_trans; [apply (Hhold _ (tm m Hm))|]. apply (HGm _ cg _ (CG * cg) _ (tm m Hm)); try assumption. intro z. now apply Hhold. }
  assert (BT : forall m, (0 < m)%nat -> B m m x = G t g x).
  { intros m Hm. rewrite (BE m m Hm (Nat.le_refl m)). f_equal. assert (0 < INR m) by now apply lt_0_INR. field. lra. }
  apply Rle_antisym.
  - apply Rnot_lt_le. intro C. destruct (Hlow ((v - G t g x) / 2) ltac:(lra)) as (m0 & Hm0). specialize (Hm0 (S m0) ltac:(lia)). rewrite BT in Hm0 by lia. lra.
  - rewrite <- (BT 1%nat ltac:(lia)). apply Hup. lia.
Qed.
End Conv.

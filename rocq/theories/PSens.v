(** Vega and gamma as one number for calls and puts; gamma of lattice prices. *)
From Coq Require Import Reals String List Arith ZArith QArith Bool Lia Lra Psatz.
From Coquelicot Require Import Coquelicot.
From Interval Require Import Tactic.
From Verif Require Import Num Py Arr MBase MVanilla MTrees STrees SSens PTrees PTrees2 PStop PTrees3 PLattice PTrees4 PGbs PGbs2 PVanilla.
Import ListNotations.
Open Scope R_scope.

Lemma formula_ext l f g : (forall w x, In (w, x) l -> f x = g x) -> formula l f = formula l g.
Proof.
  induction l as [|[w x] l IH]; intros H; [reflexivity|]. unfold formula in *. cbn [map sumR fold_right fst snd].
  rewrite (H w x) by (left; reflexivity). f_equal. apply IH. intros. eapply H. right. eassumption.
Qed.
Lemma formula_plus l f g : formula l (fun x => f x + g x) = formula l f + formula l g.
Proof. unfold formula. rewrite <- sumR_plus. apply sumR_ext. intros. ring. Qed.
Lemma formula_line l al be : second_order l -> formula l (fun x => al + be * x) = 0.
Proof.
  intros [H1 H2]. unfold formula, first_order in *.
  rewrite (sumR_ext (fun a => fst a * (al + be * snd a)) (fun a => al * fst a + be * (fst a * snd a))) by (intros; ring).
  rewrite sumR_plus, !sumR_scal, H1, H2. ring.
Qed.
Lemma formula_const l al : first_order l -> formula l (fun _ => al) = 0.
Proof.
  intros H1. unfold formula, first_order in *.
  rewrite (sumR_ext (fun a => fst a * al) (fun a => al * fst a)) by (intros; ring).
  rewrite sumR_scal, H1. ring.
Qed.

(** two prices that differ by a constant (a line) *)
Lemma formula_diff_const l f g P al : first_order l -> (forall w x, In (w, x) l -> P x) -> (forall x, P x -> f x - g x = al) -> formula l f = formula l g.
Proof.
  intros H1 Hl H. rewrite (formula_ext l f (fun x => g x + al)).
  - rewrite (formula_plus l g (fun _ => al)), formula_const; auto. ring.
  - intros. rewrite <- (H x); [ring|eauto].
Qed.
Lemma formula_diff_line l f g P al be : second_order l -> (forall w x, In (w, x) l -> P x) -> (forall x, P x -> f x - g x = al + be * x) -> formula l f = formula l g.
Proof.
  intros H1 Hl H. rewrite (formula_ext l f (fun x => g x + (al + be * x))).
  - rewrite (formula_plus l g (fun x => al + be * x)), formula_line; auto. ring.
  - intros. rewrite <- (H x); [ring|eauto].
Qed.

(*@ C75_black_scholes | European closed form: one vega and one gamma serve the call and the put, as the interface assumes. Every difference formula that gives 0 on constants has the same value on the call and on the put as functions of the volatility; every one that gives 0 on straight lines has the same value on both as functions of the spot. *)
Lemma c75_gbs : forall (S K t r b sigma : R) (l : list (R * R)) (c p : R -> R), 0 < K -> 0 < t -> (forall w x, In (w, x) l -> 0 < x) ->
  (0 < S -> first_order l ->
   (forall x, 0 < x -> gbs_call (GBSOption S K t r b (Some x)) = Ok (c x) /\ gbs_put (GBSOption S K t r b (Some x)) = Ok (p x)) ->
   formula l c = formula l p) /\
  (0 < sigma -> second_order l ->
   (forall x, 0 < x -> gbs_call (GBSOption x K t r b (Some sigma)) = Ok (c x) /\ gbs_put (GBSOption x K t r b (Some sigma)) = Ok (p x)) ->
   formula l c = formula l p).
Proof.
  intros * HK Ht Hl. split.
  - intros HS H1 H. eapply (formula_diff_const l c p (fun x => 0 < x) (S * exp ((b - r) * t) - K * exp (- r * t))); eauto.
    intros x Hx. destruct (H x Hx) as [Ec Ep]. destruct (gbs_parity S K t r b x HS HK Ht) as (vc & vp & E1 & E2 & E3); [lra|].
    rewrite Ec in E1. rewrite Ep in E2. injection E1 as ->. injection E2 as ->. exact E3.
  - intros Hs H1 H. eapply (formula_diff_line l c p (fun x => 0 < x) (- (K * exp (- r * t))) (exp ((b - r) * t))); eauto.
    intros x Hx. destruct (H x Hx) as [Ec Ep]. destruct (gbs_parity x K t r b sigma Hx HK Ht) as (vc & vp & E1 & E2 & E3); [lra|].
    rewrite Ec in E1. rewrite Ep in E2. injection E1 as ->. injection E2 as ->. rewrite E3. ring.
Qed.

(*@ C75_lattices | European CRR, TIAN and trinomial trees: likewise, for every number of steps. *)
Lemma c75_lattices : forall cl (S K t r b sigma : R) n (l : list (R * R)) (c p : R -> R), n <> 0%nat -> 0 < t -> cl <> Bi JR ->
  (first_order l -> (forall w x, In (w, x) l -> x <> 0) ->
   (forall x, x <> 0 -> tree_price cl (mkTree S K t r b x "european" n) true false = Ok (Price (c x)) /\
                        tree_price cl (mkTree S K t r b x "european" n) false false = Ok (Price (p x))) ->
   formula l c = formula l p) /\
  (sigma <> 0 -> second_order l ->
   (forall x, tree_price cl (mkTree x K t r b sigma "european" n) true false = Ok (Price (c x)) /\
              tree_price cl (mkTree x K t r b sigma "european" n) false false = Ok (Price (p x))) ->
   formula l c = formula l p).
Proof.
  intros * Hn Ht Hc. split.
  - intros H1 Hl H. eapply (formula_diff_const l c p (fun x => x <> 0) (S * exp ((b - r) * t) - K * exp (- r * t))); eauto.
    intros x Hx. destruct (H x Hx) as [Ec Ep]. destruct (lattice_parity cl S K t r b x n Hn Ht Hx Hc) as (vc & vp & E1 & E2 & E3).
    rewrite Ec in E1. rewrite Ep in E2. injection E1 as ->. injection E2 as ->. exact E3.
  - intros Hs H1 H. eapply (formula_diff_line l c p (fun x => True) (- (K * exp (- r * t))) (exp ((b - r) * t))); eauto.
    intros x _. destruct (H x) as [Ec Ep]. destruct (lattice_parity cl x K t r b sigma n Hn Ht Hs Hc) as (vc & vp & E1 & E2 & E3).
    rewrite Ec in E1. rewrite Ep in E2. injection E1 as ->. injection E2 as ->. rewrite E3. ring.
Qed.

(* ---------------------------------------------------------------- Jarrow-Rudd *)
Lemma sinh_x x : 0 < x -> exp x - exp (- x) < x * (exp x + exp (- x)).
Proof.
  intros Hx.
  destruct (MVT_gen (fun x => x * (exp x + exp (- x)) - (exp x - exp (- x))) 0 x (fun x => x * (exp x - exp (- x)))) as (c & Hc & E).
  - intros y _. auto_derive; auto. ring.
  - intros y _. apply derivable_continuous_pt. reg.
  - rewrite Rmin_left, Rmax_right in Hc by lra. rewrite Ropp_0, exp_0 in E.
    destruct (Req_dec c 0) as [->|Hc0].
    + rewrite Rmult_0_l, Rmult_0_l in E. exfalso.
      (* the function is strictly positive: use another point *)
      destruct (MVT_gen (fun x => x * (exp x + exp (- x)) - (exp x - exp (- x))) (x / 2) x (fun x => x * (exp x - exp (- x)))) as (c & Hc' & E').
      * intros y _. auto_derive; auto. ring.
      * intros y _. apply derivable_continuous_pt. reg.
      * rewrite Rmin_left, Rmax_right in Hc' by lra.
        destruct (MVT_gen (fun x => x * (exp x + exp (- x)) - (exp x - exp (- x))) 0 (x / 2) (fun x => x * (exp x - exp (- x)))) as (c' & Hc'' & E'').
        -- intros y _. auto_derive; auto. ring.
        -- intros y _. apply derivable_continuous_pt. reg.
        -- rewrite Rmin_left, Rmax_right in Hc'' by lra. rewrite Ropp_0, exp_0 in E''.
           assert (exp (- c) < exp c) by (apply exp_increasing; lra).
           assert (exp (- c') <= exp c') by (destruct (Req_dec c' 0) as [->|]; [rewrite Ropp_0; lra|left; apply exp_increasing; lra]).
           assert (0 < c * (exp c - exp (- c)) * (x - x / 2)) by (apply Rmult_lt_0_compat; [apply Rmult_lt_0_compat; lra|lra]).
           assert (0 <= c' * (exp c' - exp (- c')) * (x / 2 - 0)) by (apply Rmult_le_pos; [apply Rmult_le_pos; lra|lra]).
           lra.
    + assert (exp (- c) < exp c) by (apply exp_increasing; lra).
      assert (0 < c * (exp c - exp (- c)) * (x - 0)) by (apply Rmult_lt_0_compat; [apply Rmult_lt_0_compat; lra|lra]).
      lra.
Qed.
Lemma gauss_cosh_decr x y : 0 < x -> x < y ->
  (exp y + exp (- y)) * exp (- (y ^ 2 / 2)) < (exp x + exp (- x)) * exp (- (x ^ 2 / 2)).
Proof.
  intros Hx Hy.
  destruct (MVT_gen (fun x => (exp x + exp (- x)) * exp (- (x ^ 2 / 2))) x y
              (fun x => (exp x - exp (- x) - x * (exp x + exp (- x))) * exp (- (x ^ 2 / 2)))) as (c & Hc & E).
  - intros z _. auto_derive; auto. replace (z * (z * 1) * / 2) with (z ^ 2 / 2) by (simpl; field). field.
  - intros z _. apply derivable_continuous_pt. reg.
  - rewrite Rmin_left, Rmax_right in Hc by lra. pose proof (sinh_x c ltac:(lra)). pose proof (exp_pos (- (c ^ 2 / 2))).
    assert (0 < (x * 0 + c * (exp c + exp (- c)) - (exp c - exp (- c))) * exp (- (c ^ 2 / 2)) * (y - x))
      by (apply Rmult_lt_0_compat; [apply Rmult_lt_0_compat; lra|lra]).
    lra.
Qed.

(*@ C75_jr_refuted | Finding: Jarrow-Rudd trees have no common vega: for every number of steps, when the volatility rises the put always gains more than the call. vega() reports the call's number for both. *)
Lemma c75_jr : forall (S K t r b s1 s2 : R) n, n <> 0%nat -> 0 < t -> 0 < S -> 0 < s1 < s2 ->
  exists c1 c2 p1 p2,
    tree_price (Bi JR) (mkTree S K t r b s1 "european" n) true false = Ok (Price c1) /\
    tree_price (Bi JR) (mkTree S K t r b s2 "european" n) true false = Ok (Price c2) /\
    tree_price (Bi JR) (mkTree S K t r b s1 "european" n) false false = Ok (Price p1) /\
    tree_price (Bi JR) (mkTree S K t r b s2 "european" n) false false = Ok (Price p2) /\
    c2 - c1 < p2 - p1.
Proof.
  intros * Hn Ht HS [H1 H2].
  change "european"%string with (the_type false). rewrite !price_WM by (auto; lra).
  do 4 eexists; do 4 (split; [reflexivity|]).
  unfold zof.
  match goal with |- ?C2 - ?C1 < ?P2 - ?P1 => cut (C2 - P2 < C1 - P1); [lra|] end.
  rewrite !WM_parity by (apply moves_sum). rewrite !Df_pow by auto.
  set (F1 := sumR _). set (F2 := sumR (map _ (moves _ _ s1 _))).
  pose proof (dt_pos t n Hn Ht) as Hd. set (dt := t / INR n) in *.
  set (q := sqrt dt). assert (Hq : 0 < q) by (apply sqrt_lt_R0; auto).
  assert (Hqq : q * q = dt) by (apply sqrt_sqrt; lra).
  assert (EF : forall s, sumR (map (fun a : move => fst a * snd a) (moves (Bi JR) b s dt)) =
                exp (b * dt) * ((exp (s * q) + exp (- (s * q))) * exp (- ((s * q) ^ 2 / 2)) / 2)).
  { intros s. cbn [moves map fst snd sumR fold_right step_u step_d step_p]. fold q.
    replace ((b - s ^ 2 / 2) * dt) with (b * dt + - ((s * q) ^ 2 / 2)) by (rewrite <- Hqq; field).
    unfold Rminus. rewrite !exp_plus. field. }
  assert (E1 : F1 = exp (b * dt) * ((exp (s2 * q) + exp (- (s2 * q))) * exp (- ((s2 * q) ^ 2 / 2)) / 2)) by apply EF.
  assert (E2 : F2 = exp (b * dt) * ((exp (s1 * q) + exp (- (s1 * q))) * exp (- ((s1 * q) ^ 2 / 2)) / 2)) by apply EF.
  pose proof (gauss_cosh_decr (s1 * q) (s2 * q) ltac:(nra) ltac:(nra)) as G.
  pose proof (exp_pos (b * dt)).
  assert (0 < (exp (s2 * q) + exp (- (s2 * q))) * exp (- ((s2 * q) ^ 2 / 2))).
  { pose proof (exp_pos (s2 * q)). pose proof (exp_pos (- (s2 * q))). apply Rmult_lt_0_compat; [lra|apply exp_pos]. }
  assert (L : F1 < F2) by (rewrite E1, E2; apply Rmult_lt_compat_l; lra).
  assert (P0 : 0 < F1) by (rewrite E1; apply Rmult_lt_0_compat; lra).
  assert (L2 : F1 ^ n < F2 ^ n) by (apply pow_strict; auto).
  pose proof (exp_pos (- r * t)). apply Rmult_lt_compat_l; auto. apply Rplus_lt_compat_r. now apply Rmult_lt_compat_l.
Qed.

(* ---------------------------------------------------------------- piecewise linear functions *)
(** continuous, and everywhere one of finitely many straight lines *)
Definition PL (f : R -> R) : Prop :=
  continuity f /\ exists l : list (R * R), forall x, exists al be, In (al, be) l /\ f x = al + be * x.

Lemma PL_line al be : PL (fun x => al + be * x).
Proof. split; [reg|]. exists [(al, be)]. intros x. exists al, be. split; [left|]; reflexivity. Qed.
Lemma PL_ext f g : (forall x, f x = g x) -> PL f -> PL g.
Proof.
  intros E [C (l & H)]. split.
  - intros x. apply continuity_pt_ext with f; auto.
  - exists l. intros x. rewrite <- E. apply H.
Qed.
Lemma PL_scal k f : PL f -> PL (fun x => k * f x).
Proof.
  intros [C (l & H)]. split; [apply (continuity_scal f k C)|].
  exists (map (fun a => (k * fst a, k * snd a)) l). intros x. destruct (H x) as (al & be & Hi & E).
  exists (k * al), (k * be). split; [|rewrite E; ring]. apply (in_map (fun a => (k * fst a, k * snd a)) l (al, be) Hi).
Qed.
Lemma PL_arg k f : PL f -> PL (fun x => f (x * k)).
Proof.
  intros [C (l & H)]. split; [apply (continuity_comp (fun x => x * k) f); [reg|exact C]|].
  exists (map (fun a => (fst a, k * snd a)) l). intros x. destruct (H (x * k)) as (al & be & Hi & E).
  exists al, (k * be). split; [|rewrite E; ring]. apply (in_map (fun a => (fst a, k * snd a)) l (al, be) Hi).
Qed.
Lemma PL_plus f g : PL f -> PL g -> PL (fun x => f x + g x).
Proof.
  intros [C (l & H)] [C' (l' & H')]. split; [apply (continuity_plus f g C C')|].
  exists (map (fun p => (fst (fst p) + fst (snd p), snd (fst p) + snd (snd p))) (list_prod l l')).
  intros x. destruct (H x) as (al & be & Hi & E). destruct (H' x) as (al' & be' & Hi' & E').
  exists (al + al'), (be + be'). split; [|rewrite E, E'; ring].
  apply (in_map (fun p => (fst (fst p) + fst (snd p), snd (fst p) + snd (snd p))) (list_prod l l') ((al, be), (al', be'))).
  now apply in_prod.
Qed.
Lemma PL_max f g : PL f -> PL g -> PL (fun x => Rmax (f x) (g x)).
Proof.
  intros [C (l & H)] [C' (l' & H')]. split.
  - intros x. apply continuity_pt_ext with (fun x => (f x + g x + Rabs (f x - g x)) / 2).
    { intros y. unfold Rmax, Rabs. destruct (Rle_dec _ _), (Rcase_abs _); lra. }
    pose proof (C x). pose proof (C' x). 
    apply continuity_pt_mult; [|apply continuity_pt_const; intros ? ?; reflexivity].
    apply continuity_pt_plus; [now apply continuity_pt_plus|].
    apply (continuity_pt_comp (fun y => f y - g y) Rabs); [now apply continuity_pt_minus|apply Rcontinuity_abs].
  - exists (l ++ l'). intros x. unfold Rmax. destruct (Rle_dec _ _).
    + destruct (H' x) as (al & be & Hi & E). exists al, be. split; [apply in_app_iff; now right|exact E].
    + destruct (H x) as (al & be & Hi & E). exists al, be. split; [apply in_app_iff; now left|exact E].
Qed.
Lemma PL_sum {A} (l : list A) (f : A -> R -> R) : (forall a, PL (f a)) -> PL (fun x => sumR (map (fun a => f a x) l)).
Proof.
  intros H. induction l as [|a l IH]; cbn [map sumR fold_right].
  - apply (PL_ext (fun x => 0 + 0 * x)); [intros; ring|apply PL_line].
  - apply (PL_plus (f a) (fun x => fold_right Rplus 0 (map (fun a => f a x) l))); auto.
Qed.
Lemma PL_WM amer mv Df z K m : PL (WM amer mv Df z K m).
Proof.
  assert (PE : PL (fun x => z * (x - K))) by (apply (PL_ext (fun x => - z * K + z * x)); [intros; ring|apply PL_line]).
  induction m.
  - apply (PL_ext (fun x => Rmax (z * (x - K)) 0)); [intros; symmetry; apply WM_0|].
    apply PL_max; auto. apply (PL_ext (fun x => 0 + 0 * x)); [intros; ring|apply PL_line].
  - assert (PC : PL (fun x => Df * Ex mv (WM amer mv Df z K m) x)).
    { apply PL_scal. unfold Ex. apply (PL_sum mv (fun a x => fst a * WM amer mv Df z K m (x * snd a))).
      intros a. apply PL_scal. now apply PL_arg. }
    apply (PL_ext (fun x => if amer then Rmax (z * (x - K)) (Df * Ex mv (WM amer mv Df z K m) x) else Df * Ex mv (WM amer mv Df z K m) x));
      [intros; symmetry; apply WM_S|].
    destruct amer; [now apply PL_max|exact PC].
Qed.

(** where two of the lines cross *)
Definition crossings (l : list (R * R)) : list R :=
  map (fun p => (fst (fst p) - fst (snd p)) / (snd (snd p) - snd (fst p))) (list_prod l l).

Lemma PL_local f : PL f -> exists kinks : list R, forall x, ~ In x kinks ->
  exists eps al be, 0 < eps /\ forall y, Rabs (y - x) < eps -> f y = al + be * y.
Proof.
  intros [C (l & H)]. exists (crossings l). intros x Hx.
  destruct (H x) as (al & be & Hi & E).
  (* near x every line with another value at x stays away from f *)
  assert (Q : forall l', (forall a, In a l' -> In a l) -> exists eps, 0 < eps /\ forall y al' be', Rabs (y - x) < eps -> In (al', be') l' ->
            f y = al' + be' * y -> al' = al /\ be' = be).
  { induction l' as [|[a1 b1] l' IH]; intros Hs.
    - exists 1. split; [lra|]. intros y ? ? _ [].
    - destruct IH as (e1 & He1 & IH); [intros; apply Hs; now right|].
      destruct (Req_dec (a1 + b1 * x) (f x)) as [Q|Q].
      + exists e1. split; auto. intros y al' be' Hy [Hin|Hin] Ey; [|eauto].
        injection Hin as -> ->. rewrite E in Q.
        destruct (Req_dec be' be) as [->|Hb]; [split; [lra|reflexivity]|].
        exfalso. apply Hx. unfold crossings.
        replace x with ((al' - al) / (be - be')) by (apply (Rmult_eq_reg_r (be - be')); [field_simplify; lra|lra]).
        apply (in_map (fun p => (fst (fst p) - fst (snd p)) / (snd (snd p) - snd (fst p))) (list_prod l l) ((al', be'), (al, be))).
        apply in_prod; auto. apply Hs. now left.
      + assert (CD : continuity_pt (fun y => f y - (a1 + b1 * y)) x)
          by (apply continuity_pt_minus; [apply C|reg]).
        destruct (CD (Rabs (f x - (a1 + b1 * x)))) as (e2 & He2 & CD'); [apply Rabs_pos_lt; lra|].
        exists (Rmin e1 e2). split; [now apply Rmin_pos|]. intros y al' be' Hy [Hin|Hin] Ey.
        * injection Hin as -> ->. exfalso.
          destruct (Req_dec x y) as [->|Hn]; [lra|].
          specialize (CD' y). cbn in CD'. unfold R_dist in CD'.
          assert (Z : Rabs (f y - (al' + be' * y) - (f x - (al' + be' * x))) < Rabs (f x - (al' + be' * x))).
          { apply CD'. split; [split; [exact Logic.I|exact Hn]|]. eapply Rlt_le_trans; [exact Hy|apply Rmin_r]. }
          rewrite Ey in Z. replace (al' + be' * y - (al' + be' * y) - (f x - (al' + be' * x))) with (- (f x - (al' + be' * x))) in Z by ring.
          rewrite Rabs_Ropp in Z. lra.
        * apply (IH y); auto. eapply Rlt_le_trans; [exact Hy|apply Rmin_l]. }
  destruct (Q l) as (eps & He & Q'); [auto|].
  exists eps, al, be. split; auto. intros y Hy. destruct (H y) as (al' & be' & Hi' & E').
  destruct (Q' y al' be' Hy Hi' E') as [-> ->]. exact E'.
Qed.

(*@ C75_tree_gamma_refuted | Finding: the gamma of a tree option says nothing about curvature. For every tree class, number of steps and style the price is a straight line in the spot near every spot outside a finite set, so every difference formula for a second derivative gives exactly 0 there once its points are close enough, while the gamma of the Black-Scholes price that the European tree approximates is positive. *)
Lemma c75_tree_gamma : forall cl (K t r b sigma : R) n (amer call : bool), n <> 0%nat -> 0 < t -> 0 < sigma -> 0 < K ->
  exists kinks : list R, forall S, 0 < S -> ~ In S kinks ->
    (exists eps, 0 < eps /\ forall l (v : R -> R), second_order l -> (forall w x, In (w, x) l -> Rabs (x - S) < eps) ->
       (forall x, Rabs (x - S) < eps -> tree_price cl (mkTree x K t r b sigma (the_type amer) n) call false = Ok (Price (v x))) ->
       formula l v = 0) /\
    exists g, gbs_gamma (GBSOption S K t r b (Some sigma)) = Ok g /\ 0 < g.
Proof.
  intros * Hn Ht Hs HK.
  destruct (PL_local _ (PL_WM amer (moves cl b sigma (t / INR n)) (exp (- r * (t / INR n))) (zof call) K n)) as (kinks & HP).
  exists kinks. intros S HS Hk. split.
  - destruct (HP S Hk) as (eps & al & be & He & E). exists eps. split; auto. intros l v Hl Hx Hv.
    rewrite (formula_ext l v (fun x => al + be * x)); [now apply formula_line|].
    intros w x Hi. pose proof (Hv x (Hx _ _ Hi)) as Ev. rewrite price_WM in Ev by (auto; lra).
    injection Ev as <-. apply E. eauto.
  - destruct (gbs_greek_signs S K t r b sigma HS HK Ht Hs) as (dc & dp & ve & ga & kc & kp & lc & lp & _ & _ & _ & E & _ & _ & _ & _ & _ & _ & _ & G & _).
    eauto.
Qed.

(*@ C75_american_refuted | Finding: for American options the put's vega is not the call's, which vega() reports. Cox-Ross-Rubinstein, one step, S=100, K=101, t=1, r=b=19%: at every volatility from 20% to 21% the put is worth exactly 1 (immediate exercise), while the call gains more than 0.4 from one end to the other. *)
Lemma c75_american :
  (forall s, 20 / 100 <= s <= 21 / 100 -> tree_price (Bi CRR) (mkTree 100 101 1 (19/100) (19/100) s "american" 1) false false = Ok (Price 1)) /\
  exists c1 c2,
    tree_price (Bi CRR) (mkTree 100 101 1 (19/100) (19/100) (20/100) "american" 1) true false = Ok (Price c1) /\
    tree_price (Bi CRR) (mkTree 100 101 1 (19/100) (19/100) (21/100) "american" 1) true false = Ok (Price c2) /\
    c1 + 4 / 10 < c2.
Proof.
  change "american"%string with (the_type true).
  assert (W : forall z s, 20 / 100 <= s <= 21 / 100 ->
     WM true (moves (Bi CRR) (19/100) s (1 / INR 1)) (exp (- (19/100) * (1 / INR 1))) z 101 1 100 =
     let p := (exp (19/100) - exp (- s)) / (exp s - exp (- s)) in
     Rmax (z * (-1)) (exp (- (19/100)) * (p * Rmax (z * (100 * exp s - 101)) 0 + (1 - p) * Rmax (z * (100 * exp (- s) - 101)) 0))).
  { intros z s Hs. rewrite WM_S. unfold Ex. cbn [moves map fst snd sumR fold_right step_u step_d step_p]. rewrite !WM_0.
    replace (1 / INR 1) with 1 by (simpl; field). rewrite sqrt_1, !Rmult_1_r. cbv zeta.
    f_equal; [lra|]. f_equal. ring. }
  split.
  - intros s Hs. rewrite price_WM by (auto; lra). rewrite W by exact Hs. cbv zeta. unfold zof. do 2 f_equal.
    rewrite (Rmax_right (-1 * (100 * exp s - 101)) 0) by (interval with (i_prec 40)).
    rewrite (Rmax_left (-1 * (100 * exp (- s) - 101)) 0) by (interval with (i_prec 40)).
    rewrite Rmax_left; [lra|].
    interval with (i_prec 40, i_bisect s).
  - rewrite !price_WM by (auto; lra). rewrite !W by lra. cbv zeta. unfold zof. do 2 eexists. do 2 (split; [reflexivity|]).
    rewrite !(Rmax_right (1 * (-1))).
    + rewrite (Rmax_left (1 * (100 * exp (20/100) - 101)) 0) by (interval with (i_prec 40)).
      rewrite (Rmax_left (1 * (100 * exp (21/100) - 101)) 0) by (interval with (i_prec 40)).
      rewrite (Rmax_right (1 * (100 * exp (- (20/100)) - 101)) 0) by (interval with (i_prec 40)).
      rewrite (Rmax_right (1 * (100 * exp (- (21/100)) - 101)) 0) by (interval with (i_prec 40)).
      interval with (i_prec 60).
    + rewrite (Rmax_left (1 * (100 * exp (21/100) - 101)) 0) by (interval with (i_prec 40)).
      rewrite (Rmax_right (1 * (100 * exp (- (21/100)) - 101)) 0) by (interval with (i_prec 40)).
      interval with (i_prec 60).
    + rewrite (Rmax_left (1 * (100 * exp (20/100) - 101)) 0) by (interval with (i_prec 40)).
      rewrite (Rmax_right (1 * (100 * exp (- (20/100)) - 101)) 0) by (interval with (i_prec 40)).
      interval with (i_prec 60).
Qed.

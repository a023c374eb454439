(** Vanilla options on arrays: element-by-element (C57). *)
From Coq Require Import Reals QArith ZArith List Bool Arith Lia.
From Verif Require Import Num Py MBase MVanilla MVector SVector.
Import ListNotations.
Open Scope num_scope.
Local Open Scope nat_scope.

Section Items.
Context {E : Type} {NE : Num E}.
Variables (n i : nat).
Hypothesis Hi : i < n.
(** position [i] of [a] is [x] *)
Definition at_ (a : arr E) (x : E) : Prop := fits n a /\ item i a = Some x.
Lemma item_long (l : list E) : length l <> 1 -> item i (Ve l) = nth_error l i.
Proof. destruct l as [|x [|y l]]; cbn; [reflexivity|congruence|reflexivity]. Qed.
Lemma at_sc x : at_ (Sc x) x. Proof. split; cbn; auto. Qed.
Lemma at_map1 f (a : arr E) x : at_ a x -> at_ (map1 f a) (f x).
Proof.
  intros [Hf Hx]. destruct a as [y|l|]; [|  |contradiction]; cbn [map1].
  - cbn in Hx. injection Hx as <-. apply at_sc.
  - split; [cbn in *; now rewrite map_length|]. destruct l as [|y [|z l]]; [cbn in Hx; now destruct i|cbn in *; now injection Hx as ->|].
    rewrite item_long in * by (cbn; lia). now apply map_nth_error.
Qed.
Lemma at_map2 f (a b : arr E) x y : at_ a x -> at_ b y -> at_ (map2 f a b) (f x y).
Proof.
  intros [Hf Hx] [Hg Hy]. destruct a as [u|l|], b as [v|l'|]; try contradiction; cbn [map2].
  - cbn in Hx, Hy. injection Hx as <-. injection Hy as <-. apply at_sc.
  - cbn in Hx. injection Hx as <-. exact (at_map1 (f u) (Ve l') y (conj Hg Hy)).
  - cbn in Hy. injection Hy as <-. exact (at_map1 (fun x => f x v) (Ve l) x (conj Hf Hx)).
  - unfold bcast. destruct (Nat.eqb (length l) (length l')) eqn:El.
    + apply Nat.eqb_eq in El. split; [cbn in *; unfold zip; rewrite map_length, combine_length, <- El; lia|].
      destruct l as [|u [|u' l]], l' as [|v [|v' l']]; try discriminate.
      * cbn in Hx. now destruct i.
      * cbn in *. now injection Hx as ->; injection Hy as ->.
      * rewrite item_long in * by (unfold zip; cbn; rewrite ?map_length, ?combine_length; lia). unfold zip.
        rewrite (map_nth_error _ i (combine (u :: u' :: l) (v :: v' :: l')) (d := (x, y))); [reflexivity|].
        revert Hx Hy. generalize (u :: u' :: l) (v :: v' :: l'). clear. revert x y. induction i as [|j IH]; intros x y [|p m] [|q m'] Hx Hy; try discriminate; cbn in *; [congruence|auto].
    + apply Nat.eqb_neq in El. destruct l as [|u [|u' l]].
      * destruct l' as [|v [|v' l']]; [contradiction|cbn in Hx; now destruct i|]. cbn in Hf. lia.
      * cbn in Hx. injection Hx as <-. exact (at_map1 (f u) (Ve l') y (conj Hg Hy)).
      * destruct l' as [|v [|v' l']]; [cbn in Hf, Hg; lia| |cbn in Hf, Hg, El; lia]. cbn in Hy. injection Hy as <-. exact (at_map1 (fun x => f x v) (Ve (u :: u' :: l)) x (conj Hf Hx)).
Qed.
End Items.

(** ** Shapes *)
Section Ranks.
Context {E : Type} {NE : Num E}.
Variable n : nat.
Definition rank (a : arr E) : nat := match a with Sc _ => 0 | Ve l => if Nat.eqb (length l) 1 then 1 else 2 | Bad => 3 end.
Definition rk (a : arr E) (k : nat) : Prop := fits n a /\ rank a = k.
Lemma rk_sc x : rk (Sc x) 0. Proof. split; cbn; auto. Qed.
Lemma rk_map1 f a k : rk a k -> rk (map1 f a) k.
Proof. intros [Hf Hr]. destruct a as [x|l|]; [|  |contradiction]; (split; [|]); cbn in *; rewrite ?map_length; auto. Qed.
Lemma rk_map2 f a b k l : rk a k -> rk b l -> rk (map2 f a b) (Nat.max k l).
Proof.
  intros [Hf Hr] [Hg Hs]. unfold rk. destruct a as [u|m|], b as [v|m'|]; try contradiction; cbn [map2]; cbn in Hr, Hs; subst k l.
  - split; cbn; auto.
  - split; [cbn in *; now rewrite map_length|]. cbn. rewrite map_length. lia.
  - split; [cbn in *; now rewrite map_length|]. cbn. rewrite map_length. destruct (Nat.eqb (length m) 1); reflexivity.
  - unfold bcast. destruct (Nat.eqb (length m) (length m')) eqn:El.
    + apply Nat.eqb_eq in El. cbn. unfold zip. rewrite map_length, combine_length, <- El, Nat.min_id. split; [exact Hf|]. destruct (Nat.eqb (length m) 1); reflexivity.
    + apply Nat.eqb_neq in El. cbn in Hf, Hg. destruct m as [|u [|u' m]].
      * destruct m' as [|v [|v' m']]; cbn in *; lia.
      * cbn [rank fits]. rewrite map_length. split; [exact Hg|]. cbn [length Nat.eqb]. destruct (Nat.eqb (length m') 1) eqn:E1; [apply Nat.eqb_eq in E1; cbn in El; lia|reflexivity].
      * destruct m' as [|v [|v' m']]; cbn in *; try lia. rewrite map_length. split; [lia|reflexivity].
Qed.
Lemma rk_len a k : rk a k -> len a = match k with 0 => None | 1 => Some 1 | _ => Some n end.
Proof. intros [Hf Hr]. destruct a as [x|l|]; cbn in *; [now subst k| |contradiction]. destruct (Nat.eqb (length l) 1) eqn:E1; subst k; [apply Nat.eqb_eq in E1; now rewrite E1|]. apply Nat.eqb_neq in E1. f_equal. lia. Qed.
End Ranks.

Lemma at_pow {E} {NE : Num E} n i (a : arr E) x k : i < n -> at_ n i a x -> at_ n i (map1 (fun x => powi x k) a) (powi x k).
Proof. intros Hi H. exact (at_map1 n i Hi (fun x => powi x k) a x H). Qed.
Ltac step_at := first
  [ assumption
  | (apply at_pow; [assumption|])
  | apply at_sc
  | (apply at_map2; [assumption| |])
  | (apply at_map1; [assumption|]) ].
Ltac is_at :=
  cbn [add sub mul div opp absn sgn expn logn sqrn atn powi lit ArrNum]; repeat step_at.
Ltac is_rk := cbn [add sub mul div opp absn sgn expn logn sqrn atn powi lit ArrNum];
  repeat first [ eassumption | apply rk_sc | eapply rk_map2 | eapply rk_map1 ].
Section Kernels.
Context {E : Type} {NE : Num E}.
Variable n : nat.
Lemma rk_eq (a : arr E) k l : rk n a k -> k = l -> rk n a l. Proof. now intros ? <-. Qed.
Lemma rk_ndf (x : arr E) k : rk n x k -> rk n (ndf x) k.
Proof. intro H. unfold ndf. eapply rk_eq; [is_rk|lia]. Qed.
Lemma rk_cnd (x : arr E) k : rk n x k -> rk n (cnd x) k.
Proof.
  intro H. unfold cnd. assert (Hk : rk n (cnd_k x) k) by (unfold cnd_k; eapply rk_eq; [is_rk|lia]).
  assert (Hp : rk n (cnd_poly (cnd_k x)) k) by (unfold cnd_poly; eapply rk_eq; [is_rk|lia]). pose proof (rk_ndf x k H) as Hd.
  cbn zeta. revert Hp Hd. generalize (cnd_poly (cnd_k x)) (ndf x). intros p d Hp Hd. eapply rk_eq; [is_rk|lia].
Qed.
Lemma rk_d1 (S K t b sigma : arr E) k1 k2 k3 k5 k6 : rk n S k1 -> rk n K k2 -> rk n t k3 -> rk n b k5 -> rk n sigma k6 ->
  rk n (gbs_d1 S K t b sigma) (Nat.max k1 (Nat.max k2 (Nat.max k3 (Nat.max k5 k6)))).
Proof. intros. unfold gbs_d1. eapply rk_eq; [is_rk|lia]. Qed.
Lemma rk_d2 (S K t b sigma : arr E) k1 k2 k3 k5 k6 : rk n S k1 -> rk n K k2 -> rk n t k3 -> rk n b k5 -> rk n sigma k6 ->
  rk n (gbs_d2 S K t b sigma) (Nat.max k1 (Nat.max k2 (Nat.max k3 (Nat.max k5 k6)))).
Proof. intros. assert (X : rk n (gbs_d1 S K t b sigma) (Nat.max k1 (Nat.max k2 (Nat.max k3 (Nat.max k5 k6))))) by (now apply rk_d1). unfold gbs_d2. revert X. generalize (gbs_d1 S K t b sigma). intros d X. eapply rk_eq; [is_rk|lia]. Qed.
Variable i : nat.
Hypothesis Hi : i < n.
Lemma at_ndf (x : arr E) y : at_ n i x y -> at_ n i (ndf x) (ndf y).
Proof. intro H. unfold ndf. is_at. Qed.
Lemma at_cnd (x : arr E) y : at_ n i x y -> at_ n i (cnd x) (cnd y).
Proof.
  intro H. unfold cnd. assert (Hk : at_ n i (cnd_k x) (cnd_k y)) by (unfold cnd_k; is_at).
  assert (Hp : at_ n i (cnd_poly (cnd_k x)) (cnd_poly (cnd_k y))) by (unfold cnd_poly; is_at). pose proof (at_ndf x y H) as Hd. cbn zeta. is_at.
Qed.
Lemma at_d1 (S K t b sigma : arr E) s k t' b' sg : at_ n i S s -> at_ n i K k -> at_ n i t t' -> at_ n i b b' -> at_ n i sigma sg ->
  at_ n i (gbs_d1 S K t b sigma) (gbs_d1 s k t' b' sg).
Proof. intros. unfold gbs_d1. is_at. Qed.
Lemma at_d2 (S K t b sigma : arr E) s k t' b' sg : at_ n i S s -> at_ n i K k -> at_ n i t t' -> at_ n i b b' -> at_ n i sigma sg ->
  at_ n i (gbs_d2 S K t b sigma) (gbs_d2 s k t' b' sg).
Proof. intros. unfold gbs_d2. assert (X : at_ n i (gbs_d1 S K t b sigma) (gbs_d1 s k t' b' sg)) by now apply at_d1. is_at. Qed.
End Kernels.
Ltac go_at := cbn [add sub mul div opp absn sgn expn logn sqrn atn powi lit ArrNum]; repeat (first [assumption|match goal with
  | |- at_ _ _ (cnd _) _ => apply at_cnd; [assumption|]
  | |- at_ _ _ (ndf _) _ => apply at_ndf; [assumption|]
  | |- at_ _ _ (Sc _) _ => apply at_sc
  | |- at_ _ _ (map2 _ _ _) _ => apply at_map2; [assumption| |]
  | |- at_ _ _ (map1 _ _) _ => first [apply at_pow; [assumption|]|apply at_map1; [assumption|]]
  end]).
Ltac go_rk := cbn [add sub mul div opp absn sgn expn logn sqrn atn powi lit ArrNum]; repeat (first [eassumption|match goal with
  | |- rk _ (cnd _) _ => eapply rk_cnd
  | |- rk _ (ndf _) _ => eapply rk_ndf
  | |- rk _ (Sc _) _ => apply rk_sc
  | |- rk _ (map2 _ _ _) _ => eapply rk_map2
  | |- rk _ (map1 _ _) _ => eapply rk_map1
  end]).
Ltac le_leaf := first [ apply Nat.le_refl | apply Nat.le_0_l | match goal with |- _ <= Nat.max ?a ?b =>
  first [ apply (Nat.le_trans _ a); [solve [le_leaf]|apply Nat.le_max_l] | apply (Nat.le_trans _ b); [solve [le_leaf]|apply Nat.le_max_r] ] end ].
Ltac le_max := repeat (apply Nat.max_lub); le_leaf.
Ltac eq_max := apply Nat.le_antisymm; le_max.
Ltac open_ask H := cbn [ask] in H; unfold gbs_call, gbs_put, gbs_delta, gbs_theta, gbs_vega, gbs_gamma, gbs_lamb, gbs_cofc, gbs_call_F, gbs_put_F, gbs_delta_F, gbs_theta_F, gbs_vega_F, gbs_gamma_F, gbs_lamb_F, gbs_cofc_F, with_d, GBSOption in H;
  cbn [g_S g_K g_t g_r g_b g_sigma g_d1 g_d2 bind] in H.
Ltac open_goal := cbn [ask]; unfold gbs_call, gbs_put, gbs_delta, gbs_theta, gbs_vega, gbs_gamma, gbs_lamb, gbs_cofc, gbs_call_F, gbs_put_F, gbs_delta_F, gbs_theta_F, gbs_vega_F, gbs_gamma_F, gbs_lamb_F, gbs_cofc_F, with_d, GBSOption;
  cbn [g_S g_K g_t g_r g_b g_sigma g_d1 g_d2 bind].

Section Gbs.
Context {E : Type} {NE : Num E}.
Definition shp (n k : nat) : option nat := match k with 0 => None | 1 => Some 1 | _ => Some n end.
Lemma shp_join n (a : arr E) k m : rk n a k -> join (len a) (shp n m) = shp n (Nat.max k m).
Proof.
  intro H. rewrite (rk_len n a k H). destruct H as [Hf Hr].
  destruct k as [|[|k]]; cbn [join Nat.max shp].
  - reflexivity.
  - destruct m as [|[|m]]; reflexivity.
  - assert (Hn : n <> 1). { destruct a as [x|l|]; cbn in *; try discriminate; [|contradiction]. destruct (Nat.eqb (length l) 1) eqn:E1; [discriminate|]. apply Nat.eqb_neq in E1. lia. }
    destruct m as [|[|m]]; destruct n as [|[|n]]; try reflexivity; contradiction.
Qed.
Lemma rk_raised n (a : arr E) k : rk n a k -> raised a = Ok a.
Proof. intros [Hf _]. now destruct a. Qed.
Lemma rk_ex n (a : arr E) : fits n a -> exists k, rk n a k.
Proof. intro H. exists (rank a). now split. Qed.
End Gbs.

Section Main.
Context {E : Type} {NE : Num E}.
Variables (n : nat) (S K t r b sigma : arr E).
Hypothesis HS : fits n S.
Hypothesis HK : fits n K.
Hypothesis Ht : fits n t.
Hypothesis Hr : fits n r.
Hypothesis Hb : fits n b.
Hypothesis Hs : fits n sigma.
Definition big : nat := Nat.max (rank S) (Nat.max (rank K) (Nat.max (rank t) (Nat.max (rank r) (Nat.max (rank b) (rank sigma))))).
Lemma joint_big : joint [S; K; t; r; b; sigma] = shp n big.
Proof.
  unfold joint, big. cbn [map fold_right].
  assert (E0 : join (len sigma) None = shp n (rank sigma)) by (rewrite (rk_len n sigma (rank sigma) (conj Hs eq_refl)); unfold shp; destruct (rank sigma) as [|[|]]; try reflexivity; now destruct n as [|[|]]).
  rewrite E0. rewrite !(fun a Ha m => shp_join n a (rank a) m (conj Ha eq_refl)) by assumption. reflexivity.
Qed.
Let o := GBSOption S K t r b (Some sigma).
Lemma gbs_ok : vGBSOption S K t r b (Some sigma) = Ok o.
Proof.
  destruct (rk_ex n S HS) as (k1 & R1). destruct (rk_ex n K HK) as (k2 & R2). destruct (rk_ex n t Ht) as (k3 & R3). destruct (rk_ex n b Hb) as (k5 & R5). destruct (rk_ex n sigma Hs) as (k6 & R6).
  unfold vGBSOption, GBSOption. cbn [g_d1 g_d2].
  assert (X1 : exists k, rk n (gbs_d1 S K t b sigma) k) by (eexists; eapply rk_d1; eassumption). destruct X1 as (k & X1).
  rewrite (rk_raised n _ k X1). cbn [bind].
  assert (X2 : exists k, rk n (gbs_d2 S K t b sigma) k) by (eexists; eapply rk_d2; eassumption). destruct X2 as (k' & X2).
  rewrite (rk_raised n _ k' X2). reflexivity.
Qed.
(** the value asked for, as an expression *)
Lemma ask_shape q v : ask q o = Ok v -> rk n v big.
Proof.
  pose proof (conj HS eq_refl : rk n S (rank S)) as R1. pose proof (conj HK eq_refl : rk n K (rank K)) as R2. pose proof (conj Ht eq_refl : rk n t (rank t)) as R3.
  pose proof (conj Hr eq_refl : rk n r (rank r)) as R4. pose proof (conj Hb eq_refl : rk n b (rank b)) as R5. pose proof (conj Hs eq_refl : rk n sigma (rank sigma)) as R6.
  unfold big. revert R1 R2 R3 R4 R5 R6. generalize (rank S) (rank K) (rank t) (rank r) (rank b) (rank sigma). intros k1 k2 k3 k4 k5 k6 R1 R2 R3 R4 R5 R6 Hv.
  assert (X : exists k, rk n v k /\ k = Nat.max k1 (Nat.max k2 (Nat.max k3 (Nat.max k4 (Nat.max k5 k6))))); [|now destruct X as (k & X & <-)].
  unfold o in Hv. assert (D1 := rk_d1 n S K t b sigma _ _ _ _ _ R1 R2 R3 R5 R6). assert (D2 := rk_d2 n S K t b sigma _ _ _ _ _ R1 R2 R3 R5 R6).
  destruct q as [[]|[]|[]| |[]| |[]]; open_ask Hv; revert Hv D1 D2; generalize (gbs_d1 S K t b sigma) (gbs_d2 S K t b sigma); intros d1 d2 Hv D1 D2; apply Ok_inj in Hv; subst v; (eexists; split; [go_rk|eq_max]).
Qed.
Lemma ask_item q v i s k t' r' b' sg : i < n -> ask q o = Ok v ->
  item i S = Some s -> item i K = Some k -> item i t = Some t' -> item i r = Some r' -> item i b = Some b' -> item i sigma = Some sg ->
  exists x, ask q (GBSOption s k t' r' b' (Some sg)) = Ok x /\ at_ n i v x.
Proof.
  intros Hi Hv H1 H2 H3 H4 H5 H6.
  pose proof (conj HS H1 : at_ n i S s). pose proof (conj HK H2 : at_ n i K k). pose proof (conj Ht H3 : at_ n i t t').
  pose proof (conj Hr H4 : at_ n i r r'). pose proof (conj Hb H5 : at_ n i b b'). pose proof (conj Hs H6 : at_ n i sigma sg). clear H1 H2 H3 H4 H5 H6.
  unfold o in Hv. assert (D1 : at_ n i (gbs_d1 S K t b sigma) (gbs_d1 s k t' b' sg)) by now apply at_d1. assert (D2 : at_ n i (gbs_d2 S K t b sigma) (gbs_d2 s k t' b' sg)) by now apply at_d2.
  destruct q as [[]|[]|[]| |[]| |[]]; open_ask Hv; open_goal; revert Hv D1 D2; generalize (gbs_d1 S K t b sigma) (gbs_d2 S K t b sigma); intros d1 d2 Hv D1 D2; apply Ok_inj in Hv; subst v; (eexists; split; [reflexivity|go_at]).
Qed.
Lemma W {A} (k : arr E -> arr E -> arr E -> res A) : with_d o k = k sigma (gbs_d1 S K t b sigma) (gbs_d2 S K t b sigma).
Proof. reflexivity. Qed.
Lemma ask_ok q : exists v, ask q o = Ok v /\ vask q o = Ok v.
Proof.
  assert (X : forall q, exists v, ask q o = Ok v) by (intros [[]|[]|[]| |[]| |[]]; eexists; reflexivity).
  destruct (X q) as (v & Hv). exists v. split; [exact Hv|]. assert (R := ask_shape q v Hv).
  assert (P : forall c : bool, exists w, (if c then vgbs_call o else vgbs_put o) = Ok w).
  { intro c. destruct (X (Price c)) as (w & Hw). exists w. assert (Rw := ask_shape _ w Hw). destruct c; cbn [ask] in Hw; unfold vgbs_call, vgbs_put, run; rewrite Hw; cbn [bind]; exact (rk_raised n w _ Rw). }
  destruct q as [c|c|c| |c| |c]; cbn [vask].
  1: destruct c; cbn [ask] in Hv; unfold vgbs_call, vgbs_put, run; rewrite Hv; cbn [bind]; exact (rk_raised n v _ R).
  all: cbn [ask] in Hv.
  4: { unfold vgbs_lamb. rewrite W. cbv beta. destruct (P c) as (w & ->). cbn [bind]. unfold run. rewrite Hv. exact (rk_raised n v _ R). }
  all: unfold vgbs_delta, vgbs_theta, vgbs_vega, vgbs_gamma, vgbs_cofc, run; rewrite Hv; exact (rk_raised n v _ R).
Qed.
End Main.

(*@ C57_elementwise | Passing arrays prices many options at once: if every parameter is a number, an array of length 1 or an array of length n, then construction succeeds and call, put, delta, theta, vega, lambda, gamma and the cost-of-carry Greek return a number or an array of the common length whose element i is what an option built from the i-th elements alone returns (for every arithmetic, in particular for floats) *)
Lemma vec_elementwise : forall (E : Type) (NE : Num E) (n : nat) (S K t r b sigma : arr E),
  fits n S -> fits n K -> fits n t -> fits n r -> fits n b -> fits n sigma ->
  exists o, vGBSOption S K t r b (Some sigma) = Ok o /\ forall q, exists v, vask q o = Ok v /\ fits n v /\ len v = joint [S; K; t; r; b; sigma] /\
    forall i s k t' r' b' sg, i < n ->
      item i S = Some s -> item i K = Some k -> item i t = Some t' -> item i r = Some r' -> item i b = Some b' -> item i sigma = Some sg ->
      exists x, item i v = Some x /\ ask q (GBSOption s k t' r' b' (Some sg)) = Ok x.
Proof.
  intros E NE n S K t r b sigma HS HK Ht Hr Hb Hs. exists (GBSOption S K t r b (Some sigma)). split; [now apply (gbs_ok n)|]. intro q.
  destruct (ask_ok n S K t r b sigma HS HK Ht Hr Hb Hs q) as (v & Hv & Hv'). exists v. split; [exact Hv'|].
  assert (R := ask_shape n S K t r b sigma HS HK Ht Hr Hb Hs q v Hv). split; [exact (proj1 R)|]. split; [now rewrite (joint_big n), (rk_len n v _ R)|].
  intros i s k t' r' b' sg Hi H1 H2 H3 H4 H5 H6. destruct (ask_item n S K t r b sigma HS HK Ht Hr Hb Hs q v i s k t' r' b' sg Hi Hv H1 H2 H3 H4 H5 H6) as (x & Hx & _ & Hx'). eauto.
Qed.

(** ** rho and the dictionary of Greeks *)
Section Rho.
Context {E : Type} {NE : Num E}.
Variables (n : nat) (S K t r b sigma : arr E).
Hypothesis HS : fits n S.
Hypothesis HK : fits n K.
Hypothesis Ht : fits n t.
Hypothesis Hr : fits n r.
Hypothesis Hb : fits n b.
Hypothesis Hs : fits n sigma.
Let o := GBSOption S K t r b (Some sigma).
Definition rho_expr (nz call : bool) (price : arr E) : arr E :=
  (if nz then if call then t * K * expn ((- r) * t) * cnd (gbs_d2 S K t b sigma)
              else (- t) * K * expn ((- r) * t) * cnd (- gbs_d2 S K t b sigma)
   else (- t) * price)%num.
Lemma rho_shape nz call price : rk n price (big S K t r b sigma) -> rk n (rho_expr nz call price) (big S K t r b sigma).
Proof.
  intro RP. pose proof (conj HS eq_refl : rk n S (rank S)) as R1. pose proof (conj HK eq_refl : rk n K (rank K)) as R2. pose proof (conj Ht eq_refl : rk n t (rank t)) as R3.
  pose proof (conj Hr eq_refl : rk n r (rank r)) as R4. pose proof (conj Hb eq_refl : rk n b (rank b)) as R5. pose proof (conj Hs eq_refl : rk n sigma (rank sigma)) as R6.
  unfold big in *. revert RP R1 R2 R3 R4 R5 R6. generalize (rank S) (rank K) (rank t) (rank r) (rank b) (rank sigma). intros k1 k2 k3 k4 k5 k6 RP R1 R2 R3 R4 R5 R6.
  assert (D2 := rk_d2 n S K t b sigma _ _ _ _ _ R1 R2 R3 R5 R6). unfold rho_expr.
  destruct nz, call; revert D2; generalize (gbs_d2 S K t b sigma); intros d2 D2; (eapply rk_eq; [go_rk|eq_max]).
Qed.
Lemma rho_ok call : (forall k, len b = Some k -> k = 1) -> n <> 0 -> exists v, vgbs_rho call o = Ok v /\ rk n v (big S K t r b sigma) /\
  forall i s k t' r' b' sg, i < n -> item i S = Some s -> item i K = Some k -> item i t = Some t' -> item i r = Some r' -> item i b = Some b' -> item i sigma = Some sg ->
    exists x, gbs_rho call (GBSOption s k t' r' b' (Some sg)) = Ok x /\ at_ n i v x.
Proof.
  intros Hl Hn. destruct (ask_ok n S K t r b sigma HS HK Ht Hr Hb Hs (Price call)) as (p & Hp & Hp'). fold o in Hp, Hp'.
  assert (RP := ask_shape n S K t r b sigma HS HK Ht Hr Hb Hs (Price call) p Hp).
  assert (Tb : exists b0, truth (fun b => negb (b =? lit 0)%num) b = Ok (negb (b0 =? lit 0)%num) /\ forall i, item i b = Some b0).
  { destruct b as [x|l|]; [exists x; now split| |contradiction]. specialize (Hl _ eq_refl). destruct l as [|x [|y l]]; try discriminate. exists x. now split. }
  destruct Tb as (b0 & Tb & Ib). assert (HP : (if call then vgbs_call o else vgbs_put o) = Ok p) by (destruct call; exact Hp').
  exists (rho_expr (negb (b0 =? lit 0)%num) call p). assert (RV := rho_shape (negb (b0 =? lit 0)%num) call p RP). split; [|split; [exact RV|]].
  - unfold vgbs_rho. rewrite (W S K t r b sigma) || (unfold o; rewrite W). fold o. rewrite HP. cbn [bind]. change (g_b o) with b. rewrite Tb. cbn [bind]. exact (rk_raised n _ _ RV).
  - intros i s k t' r' b' sg Hi H1 H2 H3 H4 H5 H6. destruct (ask_item n S K t r b sigma HS HK Ht Hr Hb Hs (Price call) p i s k t' r' b' sg Hi Hp H1 H2 H3 H4 H5 H6) as (x & Hx & Ax).
    rewrite Ib in H5. injection H5 as <-. pose proof (Ib i) as H5.
    pose proof (conj HS H1 : at_ n i S s). pose proof (conj HK H2 : at_ n i K k). pose proof (conj Ht H3 : at_ n i t t').
    pose proof (conj Hr H4 : at_ n i r r'). pose proof (conj Hb H5 : at_ n i b b0). pose proof (conj Hs H6 : at_ n i sigma sg).
    assert (D2 : at_ n i (gbs_d2 S K t b sigma) (gbs_d2 s k t' b0 sg)) by now apply at_d2.
    unfold gbs_rho, gbs_rho_F, with_d. cbn [g_sigma g_d1 g_d2 GBSOption]. fold gbs_call gbs_put. unfold rho_expr.
    destruct call; cbn [ask GBSOption] in Hx; rewrite Hx; cbn [bind g_b g_t g_K g_r];
      destruct (negb (b0 =? lit 0)%num); (eexists; split; [reflexivity|revert D2; generalize (gbs_d2 S K t b sigma); intros; go_at]).
Qed.
End Rho.

(*@ C57_greeks | For a cost of carry b that is the same for all (a number or an array of length 1; in particular for Black76Option) rho() and the dictionary greeks() are element by element what the scalar options return, in the same order *)
Lemma vec_greeks : forall (E : Type) (NE : Num E) (n : nat) (S K t r b sigma : arr E) (call : bool), n <> 0 ->
  fits n S -> fits n K -> fits n t -> fits n r -> fits n b -> fits n sigma -> (forall k, len b = Some k -> k = 1) ->
  exists o rho vs, vGBSOption S K t r b (Some sigma) = Ok o /\ vgbs_rho call o = Ok rho /\ len rho = joint [S; K; t; r; b; sigma] /\
    vgbs_greeks call o = Ok vs /\ Forall (fun v => len v = joint [S; K; t; r; b; sigma]) vs /\
    forall i s k t' r' b' sg, i < n ->
      item i S = Some s -> item i K = Some k -> item i t = Some t' -> item i r = Some r' -> item i b = Some b' -> item i sigma = Some sg ->
      let o' := GBSOption s k t' r' b' (Some sg) in
      (exists x, item i rho = Some x /\ gbs_rho call o' = Ok x) /\ exists xs, gbs_greeks call o' = Ok xs /\ Forall2 (fun v x => item i v = Some x) vs xs.
Proof.
  intros E NE n S K t r b sigma call Hn HS HK Ht Hr Hb Hs Hl. set (o := GBSOption S K t r b (Some sigma)).
  destruct (rho_ok n S K t r b sigma HS HK Ht Hr Hb Hs call Hl Hn) as (rho & Hrho & Rrho & Irho). fold o in Hrho.
  assert (X := ask_ok n S K t r b sigma HS HK Ht Hr Hb Hs). fold o in X. assert (RS := ask_shape n S K t r b sigma HS HK Ht Hr Hb Hs). fold o in RS. assert (IT := ask_item n S K t r b sigma HS HK Ht Hr Hb Hs). fold o in IT.
  destruct (X (Delta call)) as (d & D1 & D2). destruct (X (Theta call)) as (th & T1 & T2). destruct (X Vega) as (ve & V1 & V2). destruct (X (Lambda call)) as (la & L1 & L2). destruct (X Gamma) as (ga & G1 & G2). destruct (X (CofC call)) as (co & C1 & C2).
  exists o, rho, [d; th; ve; rho; la; ga; co]. split; [now apply (gbs_ok n)|]. split; [exact Hrho|].
  assert (LN : forall v : arr E, rk n v (big S K t r b sigma) -> len v = joint [S; K; t; r; b; sigma]) by (intros v Rv; now rewrite (joint_big n), (rk_len n v _ Rv)).
  split; [now apply LN|]. split; [|split].
  - unfold vgbs_greeks. cbn [vask] in *. rewrite D2, T2, V2, Hrho, L2, G2, C2. reflexivity.
  - repeat constructor; apply LN; eauto.
  - intros i s k t' r' b' sg Hi H1 H2 H3 H4 H5 H6 o'. destruct (Irho i s k t' r' b' sg Hi H1 H2 H3 H4 H5 H6) as (xr & Xr & _ & Ar). split; [now exists xr|].
    assert (Y : forall q v, ask q o = Ok v -> exists x, ask q o' = Ok x /\ item i v = Some x).
    { intros q v Hv. destruct (IT q v i s k t' r' b' sg Hi Hv H1 H2 H3 H4 H5 H6) as (x & Hx & _ & Ax). exists x. now split. }
    destruct (Y _ _ D1) as (xd & Xd & Ad). destruct (Y _ _ T1) as (xt & Xt & At). destruct (Y _ _ V1) as (xv & Xv & Av). destruct (Y _ _ L1) as (xl & Xl & Al). destruct (Y _ _ G1) as (xg & Xg & Ag). destruct (Y _ _ C1) as (xc & Xc & Ac).
    exists [xd; xt; xv; xr; xl; xg; xc]. split; [|repeat constructor; assumption]. unfold gbs_greeks. cbn [ask] in *. fold o' in Xr. rewrite Xd, Xt, Xv, Xr, Xl, Xg, Xc. reflexivity.
Qed.

(*@ C57_rho_refuted | greeks for arrays are documented for all parameters, but with an array of two or more costs of carry b, rho() and greeks() always raise ValueError (the test b != 0 has no truth value), whatever the other parameters *)
Lemma vec_rho_fails : forall (E : Type) (NE : Num E) (S K t r sigma : arr E) (l : list E) (call : bool) o, 2 <= length l ->
  vGBSOption S K t r (Ve l) (Some sigma) = Ok o ->
  vgbs_rho call o = Err ValueError /\ vgbs_greeks call o = Err ValueError.
Proof.
  intros E NE S K t r sigma l call o Hl Ho. unfold vGBSOption in Ho. cbn [g_d1 g_d2 GBSOption] in Ho.
  destruct (raised (gbs_d1 S K t (Ve l) sigma)); [|discriminate]. destruct (raised (gbs_d2 S K t (Ve l) sigma)); [|discriminate]. cbn [bind] in Ho. apply Ok_inj in Ho. subst o.
  set (o := GBSOption S K t r (Ve l) (Some sigma)).
  assert (VE : forall x : res (arr E), (exists v, x = Ok v) -> (exists v, run x = Ok v) \/ run x = Err ValueError).
  { intros x (v & ->). unfold run. cbn [bind]. destruct v; cbn; eauto. }
  assert (HR : vgbs_rho call o = Err ValueError).
  { unfold vgbs_rho. unfold o; rewrite W. assert (HP : (exists v, (if call then vgbs_call o else vgbs_put o) = Ok v) \/ (if call then vgbs_call o else vgbs_put o) = Err ValueError) by (destruct call; apply VE; eexists; reflexivity).
    fold o. destruct HP as [(v & ->)| ->]; [|reflexivity]. cbn [bind]. change (g_b o) with (Ve l). destruct l as [|x [|y l]]; cbn in Hl; [lia|lia|reflexivity]. }
  split; [exact HR|]. change (vgbs_greeks call o = Err ValueError). unfold vgbs_greeks.
  assert (HD : (exists v, vgbs_delta call o = Ok v) \/ vgbs_delta call o = Err ValueError) by (apply VE; eexists; reflexivity). destruct HD as [(v & ->)| ->]; [|reflexivity].
  assert (HT : (exists v, vgbs_theta call o = Ok v) \/ vgbs_theta call o = Err ValueError) by (apply VE; eexists; reflexivity). cbn [bind]. destruct HT as [(v' & ->)| ->]; [|reflexivity].
  assert (HV : (exists v, vgbs_vega o = Ok v) \/ vgbs_vega o = Err ValueError) by (apply VE; eexists; reflexivity). cbn [bind]. destruct HV as [(v'' & ->)| ->]; [|reflexivity]. cbn [bind]. now rewrite HR.
Qed.

(** ** Lengths that do not match *)
Section Cover.
Context {E : Type} {NE : Num E}.
Definition below (x y : option nat) : Prop := x = None \/ x = Some 1 \/ x = y.
Definition cov (x : option nat) (v : arr E) : Prop := v = Bad \/ below x (len v).
Lemma cov_self (a : arr E) : cov (len a) a. Proof. right. right. now right. Qed.
Lemma cov_map1 x f (a : arr E) : cov x a -> cov x (map1 f a).
Proof. intros [->|B]; [now left|]. right. destruct a; cbn in *; rewrite ?map_length; assumption. Qed.
Lemma cov_l x f (a b : arr E) : cov x a -> cov x (map2 f a b).
Proof.
  intros [->|B]; [now left|]. destruct a as [u|l|], b as [v|l'|]; try (now left); unfold cov; cbn [map2].
  - right. destruct B as [->|[->|B]]; [now left|now right; left|]. now left.
  - right. destruct B as [->|[->|B]]; [now left|now right; left|]. now left.
  - right. cbn in *. now rewrite map_length.
  - unfold bcast. destruct (Nat.eqb (length l) (length l')) eqn:El.
    + right. apply Nat.eqb_eq in El. cbn in *. unfold zip. now rewrite map_length, combine_length, <- El, Nat.min_id.
    + destruct l as [|u [|u' l]]; [destruct l' as [|v [|v' l']]; [now left|right; exact B|now left]| |].
      * right. destruct B as [->|[->|B]]; [now left|now right; left|]. cbn in B. subst x. now right; left.
      * destruct l' as [|v [|v' l']]; [now left| |now left]. right. cbn in *. now rewrite map_length.
Qed.
Lemma cov_r x f (a b : arr E) : cov x b -> cov x (map2 f a b).
Proof.
  intros [->|B]; [destruct a; now left|]. destruct a as [u|l|], b as [v|l'|]; try (now left); unfold cov; cbn [map2].
  - right. exact B.
  - right. cbn in *. now rewrite map_length.
  - right. destruct B as [->|[->|B]]; [now left|now right; left|]. now left.
  - unfold bcast. destruct (Nat.eqb (length l) (length l')) eqn:El.
    + right. apply Nat.eqb_eq in El. cbn in *. unfold zip. now rewrite map_length, combine_length, El, Nat.min_id.
    + destruct l as [|u [|u' l]]; [destruct l' as [|v [|v' l']]; [now left| |now left]| |].
      * right. destruct B as [->|[->|B]]; [now left|now right; left|]. cbn in B. subst x. now right; left.
      * right. cbn in *. now rewrite map_length.
      * destruct l' as [|v [|v' l']]; [now left| |now left]. right. destruct B as [->|[->|B]]; [now left|now right; left|]. cbn in B. subst x. now right; left.
Qed.
Lemma cov_ndf x (a : arr E) : cov x a -> cov x (ndf a).
Proof. intro H. unfold ndf. cbn [mul div opp expn ArrNum]. apply cov_l, cov_map1, cov_l, cov_r, H. Qed.
Lemma cov_cnd x (a : arr E) : cov x a -> cov x (cnd a).
Proof. intro H. unfold cnd. cbn zeta. cbn [sub mul sgn ArrNum lit]. apply cov_r, cov_r, cov_map1, H. Qed.
Lemma cov_clash (a a' v : arr E) : clash a a' -> cov (len a) v -> cov (len a') v -> v = Bad.
Proof.
  intros (k & k' & E1 & E2 & D & D1 & D2) [?|B] [?|B']; try assumption. exfalso. rewrite E1 in B. rewrite E2 in B'.
  destruct B as [B|[B|B]]; [discriminate|congruence|]. destruct B' as [B'|[B'|B']]; [discriminate|congruence|]. congruence.
Qed.
End Cover.
Ltac go_cov := first [assumption|apply cov_self|match goal with
  | |- cov _ (cnd _) => apply cov_cnd; go_cov
  | |- cov _ (ndf _) => apply cov_ndf; go_cov
  | |- cov _ (map2 _ _ _) => first [solve [apply cov_l; go_cov]|solve [apply cov_r; go_cov]]
  | |- cov _ (map1 _ _) => apply cov_map1; go_cov
  end].
Section Clash.
Context {E : Type} {NE : Num E}.
Variables (S K t r b sigma : arr E).
Let o := GBSOption S K t r b (Some sigma).
Lemma cov_d1 x : In x [S; K; t; b; sigma] -> cov (len x) (gbs_d1 S K t b sigma).
Proof. unfold gbs_d1. cbn [add mul div logn sqrn ArrNum lit]. intros [<-|[<-|[<-|[<-|[<-|[]]]]]]; go_cov. Qed.
Lemma cov_d2 x : In x [S; K; t; b; sigma] -> cov (len x) (gbs_d2 S K t b sigma).
Proof. intro H. unfold gbs_d2. cbn [sub ArrNum]. apply cov_l. now apply cov_d1. Qed.
Lemma cov_ask q v x : ask q o = Ok v -> In x [S; K; t; r; b; sigma] -> cov (len x) v.
Proof.
  intros Hv Hx.
  assert (D : x = r \/ In x [S; K; t; b; sigma]) by (destruct Hx as [<-|[<-|[<-|[<-|[<-|[<-|[]]]]]]]; [right|right|right|now left|right|right]; repeat (try (now left); right)). unfold o in Hv.
  destruct D as [->|D].
  - destruct q as [[]|[]|[]| |[]| |[]]; open_ask Hv; apply Ok_inj in Hv; subst v; generalize (gbs_d1 S K t b sigma) (gbs_d2 S K t b sigma); intros; cbn [add sub mul div opp expn sqrn ArrNum lit]; go_cov.
  - assert (D1 := cov_d1 x D). assert (D2 := cov_d2 x D). clear D Hx.
    destruct q as [[]|[]|[]| |[]| |[]]; open_ask Hv; apply Ok_inj in Hv; subst v; revert D1 D2; generalize (gbs_d1 S K t b sigma) (gbs_d2 S K t b sigma); intros d1 d2 D1 D2; cbn [add sub mul div opp expn sqrn ArrNum lit]; go_cov.
Qed.
Lemma clash_ask q x y : In x [S; K; t; r; b; sigma] -> In y [S; K; t; r; b; sigma] -> clash x y -> ask q o = Ok Bad.
Proof.
  intros Hx Hy C. assert (X : exists v, ask q o = Ok v) by (destruct q as [[]|[]|[]| |[]| |[]]; eexists; reflexivity). destruct X as (v & Hv). rewrite Hv. f_equal.
  apply (cov_clash x y); [exact C|now apply (cov_ask q)|now apply (cov_ask q)].
Qed.
End Clash.
(*@ C57_mismatch | Two parameters of lengths that do not match (different, neither of them 1) are never silently combined: the constructor raises ValueError or, when only r is involved, the option is built and every price and Greek raises ValueError *)
Lemma vec_mismatch : forall (E : Type) (NE : Num E) (S K t r b sigma x y : arr E),
  In x [S; K; t; r; b; sigma] -> In y [S; K; t; r; b; sigma] -> clash x y ->
  vGBSOption S K t r b (Some sigma) = Err ValueError \/
  exists o, vGBSOption S K t r b (Some sigma) = Ok o /\ (forall q, vask q o = Err ValueError) /\ forall call, vgbs_rho call o = Err ValueError.
Proof.
  intros E NE S K t r b sigma x y Hx Hy C. set (o := GBSOption S K t r b (Some sigma)). assert (X := fun q => clash_ask S K t r b sigma q x y Hx Hy C). fold o in X.
  assert (P : forall c : bool, (if c then vgbs_call o else vgbs_put o) = Err ValueError).
  { intros []; unfold vgbs_call, vgbs_put, run; [rewrite (X (Price true) : gbs_call o = _)|rewrite (X (Price false) : gbs_put o = _)]; reflexivity. }
  assert (A : vGBSOption S K t r b (Some sigma) = Err ValueError \/ vGBSOption S K t r b (Some sigma) = Ok o).
  { unfold vGBSOption. cbn [g_d1 g_d2 GBSOption]. destruct (raised (gbs_d1 S K t b sigma)) eqn:R1; cbn [bind]; [destruct (raised (gbs_d2 S K t b sigma)) eqn:R2; cbn [bind]; [now right|]|]; left; f_equal; [destruct (gbs_d2 S K t b sigma)|destruct (gbs_d1 S K t b sigma)]; cbn in *; congruence. }
  destruct A as [A|A]; [now left|right]. exists o. split; [exact A|]. split.
  - intros [c|c|c| |c| |c]; cbn [vask].
    1: destruct c; apply (P true) || apply (P false).
    1: unfold vgbs_delta; rewrite (X (Delta c) : gbs_delta c o = _); reflexivity.
    1: unfold vgbs_theta; rewrite (X (Theta c) : gbs_theta c o = _); reflexivity.
    1: unfold vgbs_vega; rewrite (X Vega : gbs_vega o = _); reflexivity.
    1: unfold vgbs_lamb, o; rewrite W; fold o; rewrite P; reflexivity.
    1: unfold vgbs_gamma; rewrite (X Gamma : gbs_gamma o = _); reflexivity.
    unfold vgbs_cofc; rewrite (X (CofC c) : gbs_cofc c o = _); reflexivity.
  - intro c. unfold vgbs_rho, o. rewrite W. fold o. rewrite P. reflexivity.
Qed.

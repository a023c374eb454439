(** MiltersenSchwartzOption on arrays (C57) and implied volatilities of arrays (C58). *)
From Coq Require Import Reals QArith ZArith List Bool Arith Lia Lra.
From Verif Require Import Num Py MBase MVanilla MVector SVector PCnd PVector.
Import ListNotations.
Open Scope num_scope.
Local Open Scope nat_scope.

Section Ms.
Context {E : Type} {NE : Num E}.
Variables (n : nat).
Lemma fold_rank (l : list (arr E)) : Forall (fits n) l -> joint l = shp n (fold_right Nat.max 0 (map rank l)).
Proof.
  unfold joint. induction 1 as [|a l Ha Hl IH]; [reflexivity|]. cbn [map fold_right]. rewrite IH. exact (shp_join n a (rank a) _ (conj Ha eq_refl)).
Qed.
Lemma ms_ranks (p : ms_params (arr E)) : Forall (fits n) (ms_fields p) -> let m := fold_right Nat.max 0 (map rank (ms_fields p)) in
  (exists k, rk n (ms_vz2 p) k) /\ (exists k, rk n (ms_vxz p) k) /\ (exists k, rk n (ms_d1 p) k) /\ (exists k, rk n (ms_d2 p) k) /\ rk n (ms_call p) m /\ rk n (ms_put p) m.
Proof.
  destruct p as [Pt FT K t T sS sE sF rSE rSF rEF kE kF]. cbn [ms_fields map fold_right]. cbn zeta. intro Hp.
  apply Forall_cons_iff in Hp. destruct Hp as [H0 Hp].
  apply Forall_cons_iff in Hp. destruct Hp as [H1 Hp].
  apply Forall_cons_iff in Hp. destruct Hp as [H2 Hp].
  apply Forall_cons_iff in Hp. destruct Hp as [H3 Hp].
  apply Forall_cons_iff in Hp. destruct Hp as [H4 Hp].
  apply Forall_cons_iff in Hp. destruct Hp as [H5 Hp].
  apply Forall_cons_iff in Hp. destruct Hp as [H6 Hp].
  apply Forall_cons_iff in Hp. destruct Hp as [H7 Hp].
  apply Forall_cons_iff in Hp. destruct Hp as [H8 Hp].
  apply Forall_cons_iff in Hp. destruct Hp as [H9 Hp].
  apply Forall_cons_iff in Hp. destruct Hp as [H10 Hp].
  apply Forall_cons_iff in Hp. destruct Hp as [H11 Hp].
  apply Forall_cons_iff in Hp. destruct Hp as [H12 Hp].
  clear Hp.
  apply (fun H => conj H eq_refl : rk n Pt (rank Pt)) in H0. revert H0. generalize (rank Pt). intros r0 H0.
  apply (fun H => conj H eq_refl : rk n FT (rank FT)) in H1. revert H1. generalize (rank FT). intros r1 H1.
  apply (fun H => conj H eq_refl : rk n K (rank K)) in H2. revert H2. generalize (rank K). intros r2 H2.
  apply (fun H => conj H eq_refl : rk n t (rank t)) in H3. revert H3. generalize (rank t). intros r3 H3.
  apply (fun H => conj H eq_refl : rk n T (rank T)) in H4. revert H4. generalize (rank T). intros r4 H4.
  apply (fun H => conj H eq_refl : rk n sS (rank sS)) in H5. revert H5. generalize (rank sS). intros r5 H5.
  apply (fun H => conj H eq_refl : rk n sE (rank sE)) in H6. revert H6. generalize (rank sE). intros r6 H6.
  apply (fun H => conj H eq_refl : rk n sF (rank sF)) in H7. revert H7. generalize (rank sF). intros r7 H7.
  apply (fun H => conj H eq_refl : rk n rSE (rank rSE)) in H8. revert H8. generalize (rank rSE). intros r8 H8.
  apply (fun H => conj H eq_refl : rk n rSF (rank rSF)) in H9. revert H9. generalize (rank rSF). intros r9 H9.
  apply (fun H => conj H eq_refl : rk n rEF (rank rEF)) in H10. revert H10. generalize (rank rEF). intros r10 H10.
  apply (fun H => conj H eq_refl : rk n kE (rank kE)) in H11. revert H11. generalize (rank kE). intros r11 H11.
  apply (fun H => conj H eq_refl : rk n kF (rank kF)) in H12. revert H12. generalize (rank kF). intros r12 H12.
  set (q := mkMs Pt FT K t T sS sE sF rSE rSF rEF kE kF).
  assert (Z2 : rk n (ms_vz2 q) (fold_right Nat.max 0 [r3; r4; r5; r6; r7; r8; r9; r10; r11; r12])) by (cbn [fold_right]; eapply rk_eq; [unfold ms_vz2, q; go_rk|eq_max]).
  assert (XZ : rk n (ms_vxz q) (fold_right Nat.max 0 [r3; r4; r5; r6; r7; r9; r10; r11; r12])) by (cbn [fold_right]; eapply rk_eq; [unfold ms_vxz, q; go_rk|eq_max]).
  cbn [fold_right] in Z2, XZ.
  assert (D1 : rk n (ms_d1 q) (fold_right Nat.max 0 [r1; r2; r3; r4; r5; r6; r7; r8; r9; r10; r11; r12])).
  { cbn [fold_right]. unfold ms_d1, ms_vz. change (m_FT q) with FT. change (m_K q) with K. revert Z2 XZ. generalize (ms_vz2 q) (ms_vxz q). intros z x Z2 XZ. eapply rk_eq; [go_rk|eq_max]. }
  assert (D2 : rk n (ms_d2 q) (fold_right Nat.max 0 [r1; r2; r3; r4; r5; r6; r7; r8; r9; r10; r11; r12])).
  { cbn [fold_right]. unfold ms_d2, ms_vz. change (m_FT q) with FT. change (m_K q) with K. revert Z2 XZ. generalize (ms_vz2 q) (ms_vxz q). intros z x Z2 XZ. eapply rk_eq; [go_rk|eq_max]. }
  cbn [fold_right] in D1, D2.
  split; [eexists; exact Z2|]. split; [eexists; exact XZ|]. split; [eexists; exact D1|]. split; [eexists; exact D2|].
  unfold ms_call, ms_put. change (m_FT q) with FT. change (m_K q) with K. change (m_Pt q) with Pt.
  revert XZ D1 D2. generalize (ms_vxz q) (ms_d1 q) (ms_d2 q). intros x d1 d2 XZ D1 D2.
  split; (eapply rk_eq; [go_rk|eq_max]).
Qed.
Lemma F2_cons {A B} (P : A -> B -> Prop) a b l m : Forall2 P (a :: l) (b :: m) -> P a b /\ Forall2 P l m.
Proof. intro H. now inversion H. Qed.
Lemma ms_items (p : ms_params (arr E)) i q : i < n -> Forall (fits n) (ms_fields p) -> Forall2 (fun a x => item i a = Some x) (ms_fields p) (ms_fields q) ->
  at_ n i (ms_call p) (ms_call q) /\ at_ n i (ms_put p) (ms_put q).
Proof.
  intros Hi. destruct p as [Pt FT K t T sS sE sF rSE rSF rEF kE kF], q as [Pt' FT' K' t' T' sS' sE' sF' rSE' rSF' rEF' kE' kF'].
  set (p := mkMs Pt FT K t T sS sE sF rSE rSF rEF kE kF). set (q := mkMs Pt' FT' K' t' T' sS' sE' sF' rSE' rSF' rEF' kE' kF').
  intros Hp Hq. unfold p, q in Hp, Hq. cbn [ms_fields] in Hp, Hq.
  assert (A : Forall2 (at_ n i) (ms_fields p) (ms_fields q)).
  { unfold p, q. cbn [ms_fields]. revert Hp Hq. generalize [Pt; FT; K; t; T; sS; sE; sF; rSE; rSF; rEF; kE; kF] [Pt'; FT'; K'; t'; T'; sS'; sE'; sF'; rSE'; rSF'; rEF'; kE'; kF'].
    intros l l' Hp Hq. revert Hp. induction Hq; intro Hp; constructor; inversion Hp; subst; [split; assumption|auto]. }
  unfold p, q in A. cbn [ms_fields] in A. clear Hp Hq.
  repeat match goal with H : Forall2 _ (_ :: _) (_ :: _) |- _ => apply F2_cons in H; destruct H as [? H] end. clear A.
  assert (Z2 : at_ n i (ms_vz2 p) (ms_vz2 q)) by (unfold ms_vz2, p, q; go_at).
  assert (XZ : at_ n i (ms_vxz p) (ms_vxz q)) by (unfold ms_vxz, p, q; go_at).
  assert (D1 : at_ n i (ms_d1 p) (ms_d1 q)).
  { unfold ms_d1, ms_vz. change (m_FT p) with FT. change (m_K p) with K. change (m_FT q) with FT'. change (m_K q) with K'. revert Z2 XZ. generalize (ms_vz2 p) (ms_vxz p). intros; go_at. }
  assert (D2 : at_ n i (ms_d2 p) (ms_d2 q)).
  { unfold ms_d2, ms_vz. change (m_FT p) with FT. change (m_K p) with K. change (m_FT q) with FT'. change (m_K q) with K'. revert Z2 XZ. generalize (ms_vz2 p) (ms_vxz p). intros; go_at. }
  unfold ms_call, ms_put. change (m_FT p) with FT. change (m_K p) with K. change (m_FT q) with FT'. change (m_K q) with K'. change (m_Pt p) with Pt. change (m_Pt q) with Pt'.
  revert XZ D1 D2. generalize (ms_vxz p) (ms_d1 p) (ms_d2 p). intros x d1 d2 XZ D1 D2. split; go_at.
Qed.
End Ms.

(*@ C57_miltersen | A MiltersenSchwartzOption on arrays that fit together is built, and its call and put prices have the common shape and are position by position the prices of the scalar options *)
Lemma vec_miltersen : forall (E : Type) (NE : Num E) (n : nat) (p : ms_params (arr E)), Forall (fits n) (ms_fields p) ->
  vms_new p = Ok p /\ exists c u, vms_call p = Ok c /\ vms_put p = Ok u /\ len c = joint (ms_fields p) /\ len u = joint (ms_fields p) /\
  forall i q, i < n -> Forall2 (fun a x => item i a = Some x) (ms_fields p) (ms_fields q) -> item i c = Some (ms_call q) /\ item i u = Some (ms_put q).
Proof.
  intros E NE n p Hp. destruct (ms_ranks n p Hp) as ((k1 & R1) & (k2 & R2) & (k3 & R3) & (k4 & R4) & R5 & R6). split.
  - unfold vms_new. rewrite (rk_raised n _ _ R1). cbn [bind]. rewrite (rk_raised n _ _ R2). cbn [bind]. rewrite (rk_raised n _ _ R3). cbn [bind]. rewrite (rk_raised n _ _ R4). reflexivity.
  - exists (ms_call p), (ms_put p). split; [exact (rk_raised n _ _ R5)|]. split; [exact (rk_raised n _ _ R6)|]. rewrite (fold_rank n _ Hp).
    split; [exact (rk_len n _ _ R5)|]. split; [exact (rk_len n _ _ R6)|]. intros i q Hi Hq. destruct (ms_items n p i q Hi Hp Hq) as [[_ A] [_ B]]. now split.
Qed.

(** ** Implied volatilities *)
Lemma gS {E} {NE : Num E} (S K t r b : E) s : g_S (GBSOption S K t r b s) = S. Proof. now destruct s. Qed.
Lemma gK {E} {NE : Num E} (S K t r b : E) s : g_K (GBSOption S K t r b s) = K. Proof. now destruct s. Qed.
Lemma gt {E} {NE : Num E} (S K t r b : E) s : g_t (GBSOption S K t r b s) = t. Proof. now destruct s. Qed.
Lemma gr {E} {NE : Num E} (S K t r b : E) s : g_r (GBSOption S K t r b s) = r. Proof. now destruct s. Qed.
Lemma gb {E} {NE : Num E} (S K t r b : E) s : g_b (GBSOption S K t r b s) = b. Proof. now destruct s. Qed.
Lemma gsig {E} {NE : Num E} (S K t r b : E) s : g_sigma (GBSOption S K t r b s) = s. Proof. now destruct s. Qed.
Section Vol.
Context {E : Type} {NE : Num E}.
Variable n : nat.
Hypothesis Hn : 2 <= n.
Lemma max_array_long (l : list (arr E)) : Forall (fits n) l -> (exists a, In a l /\ len a = Some n) ->
  check_array l = true /\ length (max_array l) = n.
Proof.
  intros Hf (a & Ha & La). split.
  - unfold check_array. apply existsb_exists. exists a. split; [exact Ha|]. destruct a; try discriminate. cbn in La. injection La as ->. apply Nat.ltb_lt. lia.
  - unfold max_array. assert (G : forall m : list E, length m = 1 \/ length m = n -> (length m = n \/ exists a, In a l /\ len a = Some n) ->
      length (fold_left (fun m a => match a with Ve l => if Nat.ltb (length m) (length l) then l else m | _ => m end) l m) = n).
    2: { apply G; [now left|right; now exists a]. }
    clear a Ha La. induction l as [|b l IH]; intros m Hm Hx; cbn [fold_left].
    + destruct Hx as [Hx|(a & [] & _)]. exact Hx.
    + inversion Hf as [|? ? Fb Fl]; subst. apply IH; [exact Fl| |].
      * destruct b as [x|v|]; try exact Hm. destruct (Nat.ltb (length m) (length v)); [cbn in Fb; tauto|exact Hm].
      * destruct Hx as [Hx|(a & [<-|Ha] & La)]; [| |right; now exists a].
        -- left. destruct b as [x|v|]; try exact Hx. destruct (Nat.ltb (length m) (length v)) eqn:L; [|exact Hx]. apply Nat.ltb_lt in L. cbn in Fb. lia.
        -- destruct b as [x|v|]; try discriminate. cbn in La. injection La as La. left. rewrite La. destruct (Nat.ltb (length m) n) eqn:L; [exact La|]. apply Nat.ltb_ge in L. lia.
Qed.
Lemma vvol_item S K t r b osig price call sig : Forall (fits n) [S; K; t; r; b; price] -> length sig = n ->
  exists v, vvol_func (GBSOption S K t r b osig) call price (Ve sig) = Ok v /\ len v = Some n /\
    forall i s k t' r' b' p sg, i < n -> item i S = Some s -> item i K = Some k -> item i t = Some t' -> item i r = Some r' -> item i b = Some b' -> item i price = Some p ->
      nth_error sig i = Some sg -> exists x, ask (Price call) (GBSOption s k t' r' b' (Some sg)) = Ok x /\ item i v = Some (sub p x).
Proof.
  intros Hf Hl. apply Forall_cons_iff in Hf. destruct Hf as [HS Hf]. apply Forall_cons_iff in Hf. destruct Hf as [HK Hf]. apply Forall_cons_iff in Hf. destruct Hf as [Ht Hf].
  apply Forall_cons_iff in Hf. destruct Hf as [Hr Hf]. apply Forall_cons_iff in Hf. destruct Hf as [Hb Hf]. apply Forall_cons_iff in Hf. destruct Hf as [Hp _].
  assert (Hs : fits n (Ve sig)) by (cbn; now left). assert (Rs : rank (Ve sig) = 2) by (cbn; destruct (Nat.eqb (length sig) 1) eqn:X; [apply Nat.eqb_eq in X; lia|reflexivity]).
  destruct (ask_ok n S K t r b (Ve sig) HS HK Ht Hr Hb Hs (Price call)) as (w & Hw & Hw').
  assert (R := ask_shape n S K t r b (Ve sig) HS HK Ht Hr Hb Hs (Price call) w Hw).
  assert (R2 : rk n (map2 sub price w) (Nat.max (rank price) (big S K t r b (Ve sig)))) by (apply rk_map2; [now split|exact R]).
  exists (map2 sub price w). split; [|split].
  - unfold vvol_func. rewrite gS, gK, gt, gr, gb. rewrite (gbs_ok n S K t r b (Ve sig) HS HK Ht Hb Hs). cbn [bind].
    assert (X : (if call then vgbs_call (GBSOption S K t r b (Some (Ve sig))) else vgbs_put (GBSOption S K t r b (Some (Ve sig)))) = Ok w) by (destruct call; exact Hw').
    rewrite X. cbn [bind sub ArrNum]. exact (rk_raised n _ _ R2).
  - rewrite (rk_len n _ _ R2). unfold big. rewrite Rs. assert (X : exists z, Nat.max (rank price) (Nat.max (rank S) (Nat.max (rank K) (Nat.max (rank t) (Nat.max (rank r) (Nat.max (rank b) 2))))) = Datatypes.S (Datatypes.S z)).
    { assert (2 <= Nat.max (rank price) (Nat.max (rank S) (Nat.max (rank K) (Nat.max (rank t) (Nat.max (rank r) (Nat.max (rank b) 2)))))) by le_leaf.
      revert H. generalize (Nat.max (rank price) (Nat.max (rank S) (Nat.max (rank K) (Nat.max (rank t) (Nat.max (rank r) (Nat.max (rank b) 2)))))). intros [|[|z]] H; [lia|lia|now exists z]. }
    destruct X as (z & ->). reflexivity.
  - intros i s k t' r' b' p sg Hi H1 H2 H3 H4 H5 H6 H7.
    assert (H7' : item i (Ve sig) = Some sg) by (rewrite item_long by lia; exact H7).
    destruct (ask_item n S K t r b (Ve sig) HS HK Ht Hr Hb Hs (Price call) w i s k t' r' b' sg Hi Hw H1 H2 H3 H4 H5 H7') as (x & Hx & Ax). exists x. split; [exact Hx|].
    destruct (at_map2 n i Hi sub price w p x (conj Hp H6) Ax) as [_ A]. exact A.
Qed.
End Vol.

(*@ C58_objective | When some parameter or price is an array (of n elements), volatility() hands scipy's root one system of n equations in n volatilities, starting at all ones, whose i-th equation is "price i minus the price of option i at volatility i": the implied volatilities do not influence each other *)
Lemma vol_objective : forall (E : Type) (NE : Num E) (n : nat) (S K t r b price : arr E) (sigma : option (arr E)) (call : bool) root root_scalar, 2 <= n ->
  Forall (fits n) [S; K; t; r; b; price] -> fits_opt n sigma -> (exists a, In a ([S; K; t; r; b; price] ++ given sigma) /\ len a = Some n) ->
  exists F, vgbs_volatility root root_scalar (GBSOption S K t r b sigma) price call = rmap (fun sol => Ve (fst sol)) (root F (repeat (lit 1) n)) /\
    forall sig, length sig = n -> exists v, F (Ve sig) = Ok v /\ len v = Some n /\
      forall i s k t' r' b' p sg, i < n -> item i S = Some s -> item i K = Some k -> item i t = Some t' -> item i r = Some r' -> item i b = Some b' -> item i price = Some p ->
        nth_error sig i = Some sg -> exists x, ask (Price call) (GBSOption s k t' r' b' (Some sg)) = Ok x /\ item i v = Some (p - x)%num.
Proof.
  intros E NE n S K t r b price sigma call root rs Hn Hf Hs Ha. exists (vvol_func (GBSOption S K t r b sigma) call price). split.
  - unfold vgbs_volatility. rewrite gS, gK, gt, gr, gb, gsig.
    fold (given sigma). cbv zeta. destruct (max_array_long n Hn (price :: [S; K; t; r; b] ++ given sigma)) as [X Y].
    + rewrite Forall_forall in *. intros a Hin. cbn [app] in Hin. apply in_inv in Hin. destruct Hin as [<-|Hin]; [apply Hf; cbn; tauto|]. change (In a ([S; K; t; r; b] ++ given sigma)) in Hin. apply in_app_or in Hin. destruct Hin as [Hin|Hin]; [apply Hf; cbn in Hin |- *; tauto|].
      destruct sigma as [sg|]; cbn in Hin; [|contradiction]. destruct Hin as [<-|[]]. exact Hs.
    + destruct Ha as (a & Hin & La). exists a. split; [|exact La]. apply in_app_or in Hin. destruct Hin as [Hin|Hin]; [cbn in Hin |- *; tauto|]. right. apply in_or_app. now right.
    + rewrite X. f_equal. f_equal. rewrite <- Y. generalize (max_array (price :: [S; K; t; r; b] ++ given sigma)). intro l. induction l as [|y l IH]; [reflexivity|]. cbn. now rewrite IH.
  - intros sig Hl. now apply vvol_item.
Qed.
Local Open Scope R_scope.
Lemma item_zeros n i x : (2 <= n)%nat -> item i (Ve (repeat 0 n)) = Some x -> x = 0.
Proof. intros Hn H. rewrite item_long in H by (rewrite repeat_length; lia). apply nth_error_In, repeat_spec in H. exact H. Qed.
(*@ C58_reprices | If root only ever returns exact solutions, every element of the returned volatilities gives the i-th option exactly its quoted price *)
Lemma vol_reprices : forall (n : nat) (S K t r b price : arr R) (sigma : option (arr R)) (call : bool) root root_scalar vol, (2 <= n)%nat ->
  Forall (fits n) [S; K; t; r; b; price] -> fits_opt n sigma -> (exists a, In a ([S; K; t; r; b; price] ++ given sigma) /\ len a = Some n) ->
  (forall f x0 l ok, root f x0 = Ok (l, ok) -> length l = length x0 /\ f (Ve l) = Ok (Ve (repeat 0%R (length x0)))) ->
  vgbs_volatility root root_scalar (GBSOption S K t r b sigma) price call = Ok vol ->
  len vol = Some n /\ forall i s k t' r' b' p, (i < n)%nat -> item i S = Some s -> item i K = Some k -> item i t = Some t' -> item i r = Some r' -> item i b = Some b' -> item i price = Some p ->
    exists sg, item i vol = Some sg /\ ask (Price call) (GBSOption s k t' r' b' (Some sg)) = Ok p.
Proof.
  intros n S K t r b price sigma call root rs vol Hn Hf Hs Ha Hroot Hv.
  destruct (vol_objective R _ n S K t r b price sigma call root rs Hn Hf Hs Ha) as (F & E1 & HF). rewrite E1 in Hv.
  destruct (root F (repeat (lit 1) n)) as [[l ok]|] eqn:Er; [|discriminate]. cbn [rmap fst] in Hv. apply Ok_inj in Hv. subst vol.
  apply Hroot in Er. rewrite repeat_length in Er. destruct Er as [El Ez]. split; [cbn; now rewrite El|].
  intros i s k t' r' b' p Hi H1 H2 H3 H4 H5 H6. destruct (HF l El) as (v & Ev & Lv & HI). rewrite Ez in Ev. apply Ok_inj in Ev. subst v.
  destruct (nth_error l i) as [sg|] eqn:Es; [|apply nth_error_None in Es; lia]. exists sg. split; [rewrite item_long by lia; exact Es|].
  destruct (HI i s k t' r' b' p sg Hi H1 H2 H3 H4 H5 H6 Es) as (x & Hx & Ix). apply item_zeros in Ix; [|exact Hn]. cbn in Ix. rewrite Hx. f_equal. lra.
Qed.
(*@ C58_silent_refuted | A returned implied volatility need not reprice the option: whatever root does (as long as it returns a point, converged or not), a quote at or above the forward value of the underlying, which no volatility can produce, still gets a volatility and no error - while for numbers the same call raises *)
Lemma vol_silent : forall (n : nat) (S K t r b price : arr R) (sigma : option (arr R)) root root_scalar i s k t' r' b' p, (2 <= n)%nat ->
  Forall (fits n) [S; K; t; r; b; price] -> fits_opt n sigma -> (exists a, In a ([S; K; t; r; b; price] ++ given sigma) /\ len a = Some n) ->
  (forall f x0, exists l ok, root f x0 = Ok (l, ok) /\ length l = length x0) ->
  (i < n)%nat -> item i S = Some s -> item i K = Some k -> item i t = Some t' -> item i r = Some r' -> item i b = Some b' -> item i price = Some p ->
  (0 < s)%R -> (0 < k)%R -> (s * exp ((b' - r') * t') <= p)%R ->
  exists vol sg x, vgbs_volatility root root_scalar (GBSOption S K t r b sigma) price true = Ok vol /\ len vol = Some n /\ item i vol = Some sg /\
    ask (Price true) (GBSOption s k t' r' b' (Some sg)) = Ok x /\ (x < p)%R.
Proof.
  intros n S K t r b price sigma root rs i s k t' r' b' p Hn Hf Hs Ha Hroot Hi H1 H2 H3 H4 H5 H6 Ps Pk Hp.
  destruct (vol_objective R _ n S K t r b price sigma true root rs Hn Hf Hs Ha) as (F & E1 & HF). rewrite E1.
  destruct (Hroot F (repeat (lit 1) n)) as (l & ok & -> & El). rewrite repeat_length in El. cbn [rmap fst].
  destruct (nth_error l i) as [sg|] eqn:Es; [|apply nth_error_None in Es; lia]. exists (Ve l), sg.
  destruct (HF l El) as (v & _ & _ & HI). destruct (HI i s k t' r' b' p sg Hi H1 H2 H3 H4 H5 H6 Es) as (x & Hx & _). exists x.
  split; [reflexivity|]. split; [cbn; now rewrite El|]. split; [rewrite item_long by lia; exact Es|]. split; [exact Hx|].
  cbn [ask] in Hx. unfold gbs_call, gbs_call_F, with_d, GBSOption in Hx. cbn [g_sigma g_d1 g_d2 g_S g_K g_t g_r g_b] in Hx. apply Ok_inj in Hx. subst x.
  set (d1 := gbs_d1 s k t' b' sg). set (d2 := gbs_d2 s k t' b' sg).
  change (s * exp ((b' - r') * t') * cnd d1 - k * exp (- r' * t') * cnd d2 < p).
  assert (C1 := cnd_range d1). assert (C2 := cnd_range d2). assert (X1 := exp_pos ((b' - r') * t')). assert (X2 := exp_pos (- r' * t')).
  assert (0 < s * exp ((b' - r') * t')) by now apply Rmult_lt_0_compat. assert (0 < k * exp (- r' * t')) by now apply Rmult_lt_0_compat.
  assert (0 < k * exp (- r' * t') * cnd d2) by (apply Rmult_lt_0_compat; tauto). nra.
Qed.

(** Monte Carlo options: consequences for the prices returned (C46-C48). *)
From Coq Require Import Reals ZArith QArith Qreals List Bool Lra Lia.
From Verif Require Import Num Py MBase MAmerican MMonte SMonte PMonte PMonte2.
Import ListNotations.
Open Scope R_scope.

Lemma draws_length {M St} (f : St -> res (M * St)) n : forall st Es st', draws f n st = Ok (Es, st') -> length Es = n.
Proof.
  induction n as [|n IH]; intros st Es st' HD; cbn in HD; [now injection HD as <- <-|].
  destruct (f st) as [[m s1]|]; [|discriminate]. destruct (draws f n s1) as [[l s2]|] eqn:E; [|discriminate].
  injection HD as <- <-. cbn. f_equal. now apply (IH s1 l s2).
Qed.
Lemma draws_map {M M' St} (f : St -> res (M * St)) (g : M -> M') n : forall st Es st', draws f n st = Ok (Es, st') ->
  draws (fun st => rmap (fun es => (g (fst es), snd es)) (f st)) n st = Ok (map g Es, st').
Proof.
  induction n as [|n IH]; intros st Es st' HD; cbn in HD; [now injection HD as <- <-|]. cbn [draws].
  destruct (f st) as [[m s1]|]; [|discriminate]. destruct (draws f n s1) as [[l s2]|] eqn:E; [|discriminate].
  injection HD as <- <-. cbn. now rewrite (IH _ _ _ E).
Qed.
Lemma treated_shapes n anti std Es Es' : Forall2 (treated anti std) Es Es' -> Forall (shaped n) Es -> Forall (shaped n) Es'.
Proof. induction 1 as [|E E' Es Es' HT F IH]; intro HS; constructor; inversion HS; subst; auto. eapply treated_shape; eassumption. Qed.
Lemma map_const_in {A B} (f : A -> B) c l : (forall x, In x l -> f x = c) -> map f l = repeat c (length l).
Proof. induction l as [|x l IH]; intro H; [reflexivity|]. cbn. rewrite H by now left. f_equal. apply IH. intros; apply H; now right. Qed.

Lemma rows_map {A B} (f : A -> B) n (m : list (list A)) : Forall (fun row => length row = n) m -> Forall (fun row => length row = n) (map (map f) m).
Proof. induction 1; constructor; auto. now rewrite map_length. Qed.

(*@ C46_antithetic | An antithetic option returns, loop by loop, the average of what the plain option returns for the drawn innovations and for their negatives. *)
Lemma mc_antithetic_thm : forall (St : Type) (inno : nat -> nat -> St -> res (matrix R * St)) (asian trace call : bool)
    (loops len paths : nat) (S K t r b s : R) (o plain negated : mc R St) (st st' : St) (Es : list (matrix R)),
  let option inno anti := MonteCarloOption loops len paths S K t r b (Some s) inno wiener_path (if asian then asian_payoff else vanilla_payoff) trace anti false in
  option inno true = Ok o -> option inno false = Ok plain ->
  option (fun p l st => rmap (fun es => (map (map Ropp) (fst es), snd es)) (inno p l st)) false = Ok negated ->
  draws (inno paths len) loops st = Ok (Es, st') ->
  exists vs ps ns tr tr1 tr2, mc_price call o st = Ok (MArray vs, tr, st') /\
    mc_price call plain st = Ok (MArray ps, tr1, st') /\ mc_price call negated st = Ok (MArray ns, tr2, st') /\
    vs = map (fun pn => (fst pn + snd pn) / 2) (combine ps ns).
Proof.
  intros St inno asian trace call loops len paths S K t r b s o plain negated st st' Es option H1 H2 H3 HD.
  destruct (mc_price_thm _ _ _ _ _ _ _ _ _ _ _ _ _ _ _ _ _ _ _ H1 HD ltac:(discriminate)) as (E1 & F1 & P1).
  destruct (mc_price_thm _ _ _ _ _ _ _ _ _ _ _ _ _ _ _ _ _ _ _ H2 HD ltac:(discriminate)) as (E2 & F2 & P2).
  destruct (mc_price_thm _ _ _ _ _ _ _ _ _ _ _ _ _ _ _ _ _ _ _ H3 (draws_map _ (map (map Ropp)) _ _ _ _ HD) ltac:(discriminate)) as (E3 & F3 & P3).
  destruct (P1 call) as (tr & P1'). destruct (P2 call) as (tr1 & P2'). destruct (P3 call) as (tr2 & P3').
  do 6 eexists. split; [exact P1'|]. split; [exact P2'|]. split; [exact P3'|].
  clear - F1 F2 F3. revert E2 E3 F2 F3. induction F1 as [|E E1 Es Es1 HT F1 IH]; intros E2 E3 F2 F3; inversion F2; inversion F3; subst; [reflexivity|].
  cbn [map combine fst snd]. f_equal; [|now apply IH].
  rewrite (mc_antithetic_estimate asian call S K t r b s _ E E1 HT). unfold treated in *. cbn in *. subst. reflexivity.
Qed.

(** the log contract, pays the logarithm of the terminal price, undiscounted *)
Definition log_contract (call : bool) (a : payoff_args R) : res (list R) :=
  rmap (map (fun row => ln (p_S a * exp (total row)))) (p_path a).

(*@ C46_log_contract | Variance reduction centres the simulation exactly: with antithetic or standardised innovations, a user's log contract (payoff: log of the terminal price) is priced at ln S + (b - sigma^2/2) t in every loop, without sampling error, whatever is drawn. *)
Lemma mc_log_contract : forall (St : Type) (inno : nat -> nat -> St -> res (matrix R * St)) (trace anti std call : bool)
    (loops len paths : nat) (S K t r b s : R) (o : mc R St) (st st' : St) (Es : list (matrix R)), 0 < S ->
  MonteCarloOption loops len paths S K t r b (Some s) inno wiener_path log_contract trace anti std = Ok o ->
  draws (inno paths len) loops st = Ok (Es, st') -> Forall (shaped len) Es ->
  (std = true -> Forall (fun E => varied (if anti then mirrored E else E)) Es) -> anti = true \/ std = true ->
  exists tr, mc_price call o st = Ok (MArray (repeat (ln S + (b - s ^ 2 / 2) * t) loops), tr, st').
Proof.
  intros St inno trace anti std call loops len paths S K t r b s o st st' Es HS Ho HD HE HV HC.
  unfold MonteCarloOption in Ho. destruct (Nat.eqb len 0) eqn:HL; [discriminate|]. apply Nat.eqb_neq in HL. injection Ho as <-. set (o := mkMc _ _ _ _ _ _ _ _ _ _ _ _ _ _ _ _).
  assert (HP : all_ok (mc_loop_payoff o call) Es = Ok (map (fun E => map (fun row => ln (gbm S b s (t / INR len) row)) (mc_innovations o E)) Es)).
  { apply all_ok_map. intros E _. unfold mc_loop_payoff, mc_loop_path. cbn [m_pay m_path m_sigma m_b m_S m_K m_t m_r o].
    change (m_dt o) with (t / ofnat len)%num. rewrite ofnat_INR. unfold log_contract, wiener_path, need, of_opt. cbn [bind rmap p_path p_S]. rewrite map_map. f_equal. apply map_ext. intro row.
    f_equal. rewrite <- terminal_gbm, suml_total. toR. do 3 f_equal. }
  pose proof (sim_ok o call st Es st' _ HD HP) as HSim. rewrite map_map in HSim.
  rewrite (map_const_in _ (ln S + (b - s ^ 2 / 2) * t)), (draws_length _ _ _ _ _ HD) in HSim.
  - unfold mc_price. rewrite HSim. cbn [bind fst snd m_trace o print_trace]. destruct trace; eexists; reflexivity.
  - intros E HI. assert (HT : treated anti std E (mc_innovations o E)).
    { apply (innov_treated o E). cbn [m_std m_anti o]. intro Hs. specialize (HV Hs). rewrite Forall_forall in HV. now apply HV. }
    apply (mc_moments anti std E _ S b s t len HS ltac:(lia)); [|exact HT|exact HC]. rewrite Forall_forall in HE. now apply HE.
Qed.

(*@ C47_zero_volatility | With zero volatility every loop of a plain vanilla option returns exactly the discounted payoff of the forward, whatever the innovations and variance reduction. *)
Lemma mc_zero_vol_thm : forall (St : Type) (inno : nat -> nat -> St -> res (matrix R * St)) (trace anti std call : bool)
    (loops len paths : nat) (S K t r b : R) (o : mc R St) (st st' : St) (Es : list (matrix R)),
  MonteCarloOption loops len paths S K t r b (Some 0) inno wiener_path vanilla_payoff trace anti std = Ok o ->
  draws (inno paths len) loops st = Ok (Es, st') -> Forall (shaped len) Es ->
  (std = true -> Forall (fun E => varied (if anti then mirrored E else E)) Es) ->
  exists tr, mc_price call o st = Ok (MArray (repeat (discounted call K t r (S * exp (b * t))) loops), tr, st').
Proof.
  intros St inno trace anti std call loops len paths S K t r b o st st' Es Ho HD HE HV.
  destruct (mc_price_thm _ _ false _ _ _ _ _ _ _ _ _ _ _ _ _ _ _ _ Ho HD HV) as (Es' & F & P).
  destruct (P call) as (tr & P'). exists tr. rewrite P'. do 4 f_equal. replace loops with (length Es') by (rewrite <- (F2_length _ _ _ F); exact (draws_length _ _ _ _ _ HD)).
  apply map_const_in. pose proof (treated_shapes len _ _ _ _ F HE) as HE'. rewrite Forall_forall in HE'. intros E HI.
  apply mc_zero_vol; [|now apply HE']. unfold MonteCarloOption in Ho. destruct (Nat.eqb len 0) eqn:HL; [discriminate|]. apply Nat.eqb_neq in HL. lia.
Qed.

(*@ C47_single_step | With one time step the arithmetic Asian option returns the same prices as the plain vanilla option. *)
Lemma mc_single_step_thm : forall (St : Type) (inno : nat -> nat -> St -> res (matrix R * St)) (trace anti std call : bool)
    (loops paths : nat) (S K t r b s : R) (vanilla asian : mc R St) (st st' : St) (Es : list (matrix R)),
  MonteCarloOption loops 1 paths S K t r b (Some s) inno wiener_path vanilla_payoff trace anti std = Ok vanilla ->
  MonteCarloOption loops 1 paths S K t r b (Some s) inno wiener_path asian_payoff trace anti std = Ok asian ->
  draws (inno paths 1%nat) loops st = Ok (Es, st') -> Forall (shaped 1) Es ->
  mc_price call asian st = mc_price call vanilla st.
Proof.
  intros St inno trace anti std call loops paths S K t r b s vanilla asian st st' Es H1 H2 HD HE.
  cbn in H1, H2. injection H1 as <-. injection H2 as <-. set (v := mkMc _ _ _ _ _ _ _ _ _ _ _ _ vanilla_payoff _ _ _). set (a := mkMc _ _ _ _ _ _ _ _ _ _ _ _ asian_payoff _ _ _).
  assert (HI : forall E, mc_innovations a E = mc_innovations v E) by reflexivity.
  assert (HP : forall o, m_loops o = loops -> m_inno o = inno paths 1%nat -> forall pays, all_ok (mc_loop_payoff o call) Es = Ok pays -> sim_mc o call st = Ok (MArray (map average pays), st')).
  { intros o Hl Hi pays Hp. apply (sim_ok o call st Es st' pays); [now rewrite Hl, Hi|exact Hp]. }
  assert (Q1 : all_ok (mc_loop_payoff v call) Es = Ok (map (fun E => map (fun row => discounted call K t r (underlying false S b s (m_dt v) row)) (mc_innovations v E)) Es)).
  { apply all_ok_map. intros E _. unfold mc_loop_payoff, mc_loop_path. cbn [m_pay m_path m_sigma m_b m_S m_K m_t m_r v]. apply (payoff_value false). }
  assert (Q2 : all_ok (mc_loop_payoff a call) Es = Ok (map (fun E => map (fun row => discounted call K t r (underlying true S b s (m_dt v) row)) (mc_innovations v E)) Es)).
  { apply all_ok_map. intros E _. unfold mc_loop_payoff, mc_loop_path. cbn [m_pay m_path m_sigma m_b m_S m_K m_t m_r a]. apply (payoff_value true). }
  assert (HQ : forall E, In E Es -> Forall (fun row => length row = 1%nat) (mc_innovations v E)).
  { intros E HIn. rewrite Forall_forall in HE. destruct (HE E HIn) as [_ H2]. unfold mc_innovations, mc_antithetic, mc_standardize. cbn [m_anti m_std v].
    assert (HA : Forall (fun row => length row = 1%nat) (if anti then E ++ map (map opp) E else E)).
    { destruct anti; [|exact H2]. apply Forall_app. split; [exact H2|]. clear - H2. induction H2; constructor; auto. now rewrite map_length. }
    destruct std; [|exact HA]. cbv zeta. apply rows_map. exact HA. }
  unfold mc_price. rewrite (HP v eq_refl eq_refl _ Q1), (HP a eq_refl eq_refl _ Q2).
  replace (map average (map (fun E => map (fun row => discounted call K t r (underlying true S b s (m_dt v) row)) (mc_innovations v E)) Es))
    with (map average (map (fun E => map (fun row => discounted call K t r (underlying false S b s (m_dt v) row)) (mc_innovations v E)) Es)); [reflexivity|].
  rewrite !map_map. apply map_ext_in. intros E HIn. symmetry. apply (mc_single_step call S K t r b s (m_dt v) (mc_innovations v E) (HQ E HIn)).
Qed.

Lemma discounted_mono (call : bool) K t r u v : u <= v -> (if call then discounted call K t r u <= discounted call K t r v else discounted call K t r v <= discounted call K t r u).
Proof. intro. pose proof (exp_pos (- r * t)). unfold discounted. destruct call; apply Rmult_le_compat_l; try lra; unfold Rmax; repeat destruct Rle_dec; lra. Qed.

Lemma loops_F2 {A B} (P : A -> B -> Prop) (f : A -> B) l : (forall x, In x l -> P x (f x)) -> Forall2 P l (map f l).
Proof. induction l as [|x l IH]; intro H; constructor; [apply H; now left|apply IH; intros; apply H; now right]. Qed.

Lemma pick_row (Q : list R -> nat -> Prop) (m : list (list R)) : (forall row, In row m -> exists i, Q row i) -> exists f : list R -> nat, forall row, In row m -> Q row (f row).
Proof.
  induction m as [|row m IH]; intro H; [exists (fun _ => 0%nat); intros ? []|].
  destruct IH as (f & Hf); [intros; apply H; now right|]. destruct (H row (or_introl eq_refl)) as (i & Hi).
  exists (fun x => if list_eq_dec Req_EM_T x row then i else f x). intros x Hx. destruct (list_eq_dec Req_EM_T x row) as [->|Hn]; [exact Hi|].
  destruct Hx as [->|Hx]; [contradiction|]. now apply Hf.
Qed.

(*@ C47_asian_between | The Asian estimate of a loop lies between the averages of the discounted payoff with every path looked at at its worst and at its best time point. *)
Lemma mc_asian_between_thm : forall (St : Type) (inno : nat -> nat -> St -> res (matrix R * St)) (trace anti std call : bool)
    (loops len paths : nat) (S K t r b s : R) (o : mc R St) (st st' : St) (Es : list (matrix R)),
  MonteCarloOption loops len paths S K t r b (Some s) inno wiener_path asian_payoff trace anti std = Ok o ->
  draws (inno paths len) loops st = Ok (Es, st') -> Forall (shaped len) Es ->
  (std = true -> Forall (fun E => varied (if anti then mirrored E else E)) Es) ->
  exists Es' vs tr, Forall2 (treated anti std) Es Es' /\ mc_price call o st = Ok (MArray vs, tr, st') /\
    Forall2 (fun E v => exists worst best : list R -> nat,
      Forall (fun row => (1 <= worst row <= len /\ 1 <= best row <= len)%nat) E /\
      let at_time tau := average (map (fun row => discounted call K t r (gbm S b s (t / INR len) (firstn (tau row) row))) E) in
      at_time worst <= v <= at_time best) Es' vs.
Proof.
  intros St inno trace anti std call loops len paths S K t r b s o st st' Es Ho HD HE HV.
  destruct (mc_price_thm _ _ true _ _ _ _ _ _ _ _ _ _ _ _ _ _ _ _ Ho HD HV) as (Es' & F & P).
  destruct (P call) as (tr & P'). exists Es'. do 2 eexists. split; [exact F|]. split; [exact P'|].
  pose proof (treated_shapes len _ _ _ _ F HE) as HE'. rewrite Forall_forall in HE'. apply loops_F2. intros E HI. destruct (HE' E HI) as [_ HR].
  assert (HL : (0 < len)%nat). { unfold MonteCarloOption in Ho. destruct (Nat.eqb len 0) eqn:HL; [discriminate|]. apply Nat.eqb_neq in HL. lia. }
  rewrite Forall_forall in HR. set (D := discounted call K t r). set (G := fun i row => gbm S b s (t / INR len) (firstn i row)).
  assert (HB : forall row, In row E -> exists i j, (1 <= i <= len)%nat /\ (1 <= j <= len)%nat /\ D (G i row) <= D (underlying true S b s (t / INR len) row) <= D (G j row)).
  { intros row Hr. destruct (mc_asian_between S b s (t / INR len) row) as (i & j & Hi & Hj & B1 & B2).
    { intro Hn. specialize (HR row Hr). subst row. cbn in HR. lia. }
    rewrite (HR row Hr) in *. apply (discounted_mono call K t r) in B1, B2. unfold D, G. destruct call; [exists i, j|exists j, i]; auto. }
  destruct (pick_row (fun row i => (1 <= i <= len)%nat /\ D (G i row) <= D (underlying true S b s (t / INR len) row)) E) as (w & Hw).
  { intros row Hr. destruct (HB row Hr) as (i & j & ? & ? & ? & ?). eauto. }
  destruct (pick_row (fun row i => (1 <= i <= len)%nat /\ D (underlying true S b s (t / INR len) row) <= D (G i row)) E) as (be & Hb).
  { intros row Hr. destruct (HB row Hr) as (i & j & ? & ? & ? & ?). eauto. }
  exists w, be. split; [|cbv zeta; split].
  - apply Forall_forall. intros row Hr. split; [apply (Hw row Hr)|apply (Hb row Hr)].
  - apply average_le. intros row Hr. apply (Hw row Hr).
  - apply average_le. intros row Hr. apply (Hb row Hr).
Qed.

(*@ C47_strikes | Across strikes, on common innovations: every loop's estimate is at least the discounted payoff of the average underlying, and at most the discounted average underlying (call) or strike (put); it falls (call) or rises (put) with the strike with slope at most the discount factor, and is convex in the strike. *)
Lemma mc_strikes : forall (St : Type) (inno : nat -> nat -> St -> res (matrix R * St)) (asian trace anti std call : bool)
    (loops len paths : nat) (S K K' w t r b s : R) (o o' ow : mc R St) (st st' : St) (Es : list (matrix R)),
  0 < S -> 0 < K <= K' -> 0 <= w <= 1 ->
  let option K := MonteCarloOption loops len paths S K t r b (Some s) inno wiener_path (if asian then asian_payoff else vanilla_payoff) trace anti std in
  option K = Ok o -> option K' = Ok o' -> option (w * K + (1 - w) * K') = Ok ow ->
  draws (inno paths len) loops st = Ok (Es, st') -> Forall (shaped len) Es ->
  (std = true -> Forall (fun E => varied (if anti then mirrored E else E)) Es) ->
  exists Es' vs tr tr' tr2, Forall2 (treated anti std) Es Es' /\
    mc_price call o st = Ok (MArray (map (fun x => fst (fst x)) vs), tr, st') /\
    mc_price call o' st = Ok (MArray (map (fun x => snd (fst x)) vs), tr', st') /\
    mc_price call ow st = Ok (MArray (map snd vs), tr2, st') /\
    Forall2 (fun E '(v, v', vw) =>
      let mean := average (map (underlying asian S b s (t / INR len)) E) in
      discounted call K t r mean <= v <= exp (- r * t) * (if call then mean else K) /\
      0 <= (if call then v - v' else v' - v) <= exp (- r * t) * (K' - K) /\
      vw <= w * v + (1 - w) * v') Es' vs.
Proof.
  intros St inno asian trace anti std call loops len paths S K K' w t r b s o o' ow st st' Es HS HK Hw option H1 H2 H3 HD HE HV.
  pose proof (mc_price_thm _ _ _ _ _ _ _ _ _ _ _ _ _ _ _ _ _ _ _ H1 HD HV) as (E1 & F1 & P1).
  assert (HX : exists Es', Forall2 (treated anti std) Es Es' /\ forall K0 o0, option K0 = Ok o0 -> exists tr, mc_price call o0 st = Ok (MArray (map (estimate asian call S K0 t r b s (t / INR len)) Es'), tr, st')).
  { exists (map (mc_innovations o) Es). split.
    - unfold option, MonteCarloOption in H1. destruct (Nat.eqb len 0); [discriminate|]. injection H1 as <-. apply loops_F2. intros E HI. match goal with |- treated _ _ _ (mc_innovations ?q E) => apply (innov_treated q E) end. cbn [m_std m_anti]. intro Hs. specialize (HV Hs). rewrite Forall_forall in HV. now apply HV.
    - intros K0 o0 H0. unfold option, MonteCarloOption in *. destruct (Nat.eqb len 0); [discriminate|]. injection H1 as <-. injection H0 as <-.
      set (o1 := mkMc _ _ _ _ _ K _ _ _ _ _ _ _ _ _ _). set (o2 := mkMc _ _ _ _ _ K0 _ _ _ _ _ _ _ _ _ _).
      assert (HP : all_ok (mc_loop_payoff o2 call) Es = Ok (map (fun E => map (fun row => discounted call K0 t r (underlying asian S b s (t / INR len) row)) (mc_innovations o1 E)) Es)).
      { apply all_ok_map. intros E _. unfold mc_loop_payoff, mc_loop_path. cbn [m_pay m_path m_sigma m_b m_S m_K m_t m_r o2].
        change (m_dt o2) with (t / ofnat len)%num. rewrite ofnat_INR. apply (payoff_value asian). }
      pose proof (sim_ok o2 call st Es st' _ HD HP) as HSim. unfold mc_price. rewrite HSim. cbn [bind fst snd m_trace o2 print_trace].
      rewrite !map_map. destruct trace; eexists; reflexivity. }
  clear E1 F1 P1. destruct HX as (Es' & F & P).
  destruct (P _ _ H1) as (tr & Q1). destruct (P _ _ H2) as (tr' & Q2). destruct (P _ _ H3) as (tr2 & Q3).
  exists Es', (map (fun E => (estimate asian call S K t r b s (t / INR len) E, estimate asian call S K' t r b s (t / INR len) E, estimate asian call S (w * K + (1 - w) * K') t r b s (t / INR len) E)) Es'), tr, tr', tr2.
  rewrite !map_map. cbn [fst snd]. split; [exact F|]. split; [exact Q1|]. split; [exact Q2|]. split; [exact Q3|].
  pose proof (treated_shapes len _ _ _ _ F HE) as HE'. rewrite Forall_forall in HE'. apply loops_F2. intros E HI. destruct (HE' E HI) as [HN HR]. cbv zeta.
  assert (HL : (0 < len)%nat). { unfold option, MonteCarloOption in H1. destruct (Nat.eqb len 0) eqn:HL; [discriminate|]. apply Nat.eqb_neq in HL. lia. }
  destruct (mc_bounds asian call S K t r b s (t / INR len) E HS ltac:(lra) HN) as (B1 & B2 & B3).
  { rewrite Forall_forall in *. intros row Hr Hx. specialize (HR row Hr). subst row. cbn in HR. lia. }
  split; [exact B1|]. split; [|apply B3; exact Hw]. specialize (B2 K' ltac:(lra)). destruct call; lra.
Qed.

(*@ C47_no_volatility | Without a volatility the built-in path raises TypeError as soon as a loop runs. *)
Lemma mc_no_sigma : forall (T : Type) (N : Num T) (St : Type) (inno : nat -> nat -> St -> res (matrix T * St)) (asian trace anti std call : bool)
    (loops len paths : nat) (S K t r b : T) (o : mc T St) (st st' : St) (E : matrix T), (0 < loops)%nat ->
  MonteCarloOption loops len paths S K t r b None inno wiener_path (if asian then asian_payoff else vanilla_payoff) trace anti std = Ok o ->
  inno paths len st = Ok (E, st') -> mc_price call o st = Err TypeError.
Proof.
  intros T N St inno asian trace anti std call loops len paths S K t r b o st st' E HL Ho HD.
  unfold MonteCarloOption in Ho. destruct (Nat.eqb len 0); [discriminate|]. injection Ho as <-. destruct loops as [|n]; [lia|].
  unfold mc_price, sim_mc. cbn [m_loops sim_mc_from m_inno]. rewrite HD. cbn [bind fst snd]. unfold mc_loop_payoff, mc_loop_path. cbn [m_pay m_path m_sigma].
  destruct asian; reflexivity.
Qed.

(** ** Shape of the result *)
Lemma sim_shape {T} `{Num T} {St} (o : mc T St) call n : forall i acc st m st', sim_mc_from o call n i acc st = Ok (m, st') ->
  match m with
  | MArray l => length l = (n + length acc)%nat
  | MDump k _ _ pay => (i <= k < i + n)%nat /\ is_pinf (meanl pay) = true
  end.
Proof.
  induction n as [|n IH]; intros i acc st m st' HS; cbn in HS; [injection HS as <- <-; reflexivity|].
  destruct (m_inno o st) as [[E s1]|]; [|discriminate]. cbn [bind fst snd] in HS. destruct (mc_loop_payoff o call E) as [pay|]; [|discriminate]. cbn [bind] in HS.
  destruct (is_pinf (meanl pay)) eqn:HP.
  - injection HS as <- <-. split; [lia|exact HP].
  - apply IH in HS. destruct m; [rewrite app_length in HS; cbn in HS; lia|]. destruct HS; split; [lia|assumption].
Qed.
(*@ C48_shape | call() and put() return an array with exactly mc_loops entries, or, if the mean payoff of some loop is infinite, the debugging triple of that loop; with real-number arithmetic always the array. *)
Lemma mc_shape : forall (T : Type) (N : Num T) (St : Type) (inno : nat -> nat -> St -> res (matrix T * St)) Path Payoff (trace anti std call : bool)
    (loops len paths : nat) (S K t r b : T) (s : option T) (o : mc T St) (st st' : St) (m : mc_result T) tr,
  MonteCarloOption loops len paths S K t r b s inno Path Payoff trace anti std = Ok o -> mc_price call o st = Ok (m, tr, st') ->
  match m with
  | MArray l => length l = loops
  | MDump k _ _ pay => (k < loops)%nat /\ (lit 0 <? meanl pay)%num = true /\ (meanl pay =? meanl pay + lit 1)%num = true /\ trace = false
  end.
Proof.
  intros T N St inno Path Payoff trace anti std call loops len paths S K t r b s o st st' m tr Ho HP.
  unfold MonteCarloOption in Ho. destruct (Nat.eqb len 0); [discriminate|]. injection Ho as <-. set (o := mkMc _ _ _ _ _ _ _ _ _ _ _ _ _ _ _ _) in *.
  unfold mc_price in HP. destruct (sim_mc o call st) as [[m' s1]|] eqn:HS; [|discriminate]. apply sim_shape in HS. cbn [bind fst snd m_trace o] in HP.
  assert (m' = m /\ (trace = true -> exists x, print_trace m = Ok x)).
  { destruct trace; [destruct (print_trace m') eqn:HT; [|discriminate]; cbn in HP; injection HP as <- _ _; split; [reflexivity|eauto]|injection HP as <- _ _; split; [reflexivity|discriminate]]. }
  destruct H as [-> HT]. destruct m; cbn in HS; [lia|]. destruct HS as [HS1 HS2]. unfold is_pinf in HS2. apply andb_prop in HS2 as [HS2 HS3].
  split; [lia|]. split; [exact HS2|]. split; [exact HS3|]. destruct trace; [|reflexivity]. destruct (HT eq_refl). discriminate.
Qed.

(*@ C48_given_innovations | If the sampler always returns the same innovations (eps given), all loops return the same price. *)
Lemma mc_given : forall (St : Type) (E : matrix R) (next : St -> St) Path Payoff (trace anti std call : bool)
    (loops len paths : nat) (S K t r b : R) (s : option R) (o : mc R St) (st st' : St) (m : mc_result R) tr,
  MonteCarloOption loops len paths S K t r b s (fun _ _ st => Ok (E, next st)) Path Payoff trace anti std = Ok o ->
  mc_price call o st = Ok (m, tr, st') -> exists v, m = MArray (repeat v loops).
Proof.
  intros St E next Path Payoff trace anti std call loops len paths S K t r b s o st st' m tr Ho HP.
  unfold MonteCarloOption in Ho. destruct (Nat.eqb len 0); [discriminate|]. injection Ho as <-. set (o := mkMc _ _ _ _ _ _ _ _ _ _ _ _ _ _ _ _) in *.
  unfold mc_price in HP. destruct (sim_mc o call st) as [[m' s1]|] eqn:HS; [|discriminate]. cbn [bind fst snd m_trace o] in HP.
  assert (m' = m). { destruct trace; [destruct (print_trace m') eqn:HT; [|discriminate]; cbn in HP|]; now injection HP as <- _ _. } subst m'.
  unfold sim_mc in HS. change (m_loops o) with loops in HS. clear HP.
  destruct (mc_loop_payoff o call E) as [pay|e] eqn:HPay.
  - exists (average pay).
    assert (G : forall n i acc st, sim_mc_from o call n i acc st = Ok (MArray (acc ++ repeat (average pay) n), Nat.iter n next st)).
    { clear st HS. assert (HI : forall n x, Nat.iter n next (next x) = next (Nat.iter n next x)).
      { clear. induction n as [|n IH]; intro x; [reflexivity|]. change (next (Nat.iter n next (next x)) = next (next (Nat.iter n next x))). now rewrite IH. }
      induction n as [|n IH]; intros i acc st; cbn [sim_mc_from repeat]; [now rewrite app_nil_r|].
      cbn [m_inno o bind fst snd]. fold o. rewrite HPay. cbn [bind]. rewrite pinf_never, IH, meanl_average, <- app_assoc. f_equal. f_equal. exact (HI n st). }
    rewrite G in HS. now injection HS as <- _.
  - destruct loops as [|n]; [exists 0; now injection HS as <- _|]. cbn [sim_mc_from] in HS. change (m_inno o st) with (@Ok (matrix R * St) (E, next st)) in HS. cbn [bind fst snd] in HS. rewrite HPay in HS. discriminate.
Qed.

(*@ C48_trace_refuted | Finding: the trace does not print running averages. Line i shows the total over all loops divided by i + 1, which exceeds the average of the first i + 1 prices by the sum of the later prices over i + 1; it is right on the last line only. *)
Lemma mc_trace : forall (St : Type) (inno : nat -> nat -> St -> res (matrix R * St)) Path Payoff (anti std call : bool)
    (loops len paths : nat) (S K t r b : R) (s : option R) (o : mc R St) (st st' : St) (vs : list R) tr,
  MonteCarloOption loops len paths S K t r b s inno Path Payoff true anti std = Ok o ->
  mc_price call o st = Ok (MArray vs, tr, st') ->
  length tr = loops /\
  forall i, (i < loops)%nat -> exists shown, nth_error tr i = Some (i, nth i vs 0, shown) /\
    shown - average (firstn (i + 1) vs) = total (skipn (i + 1) vs) / INR (i + 1).
Proof.
  intros St inno Path Payoff anti std call loops len paths S K t r b s o st st' vs tr Ho HP.
  pose proof (mc_shape _ _ _ _ _ _ _ _ _ _ _ _ _ _ _ _ _ _ _ _ _ _ _ _ Ho HP) as HL. cbn in HL.
  unfold MonteCarloOption in Ho. destruct (Nat.eqb len 0); [discriminate|]. injection Ho as <-. set (o := mkMc _ _ _ _ _ _ _ _ _ _ _ _ _ _ _ _) in *.
  unfold mc_price in HP. destruct (sim_mc o call st) as [[m' s1]|] eqn:HS; [|discriminate]. cbn [bind fst snd m_trace o] in HP.
  destruct m'; [|discriminate]. cbn [print_trace bind] in HP. injection HP as -> <- <-.
  assert (G : forall l k tot, length (trace_from k tot l) = length l /\ forall i, (i < length l)%nat -> nth_error (trace_from k tot l) i = Some ((k + i)%nat, nth i l 0, tot / INR (Datatypes.S (k + i)))).
  { clear. induction l as [|x l IH]; intros k tot; [split; [reflexivity|cbn; lia]|]. cbn [trace_from length]. destruct (IH (Datatypes.S k) tot) as [I1 I2]. split; [now rewrite I1|].
    intros [|i] Hi; cbn [nth_error nth]; [rewrite Nat.add_0_r, ofnat_INR; reflexivity|]. rewrite I2 by lia. now rewrite <- plus_n_Sm. }
  destruct (G vs 0%nat (suml vs)) as [G1 G2]. split; [congruence|]. intros i Hi. rewrite <- HL in Hi. eexists. split; [apply G2; exact Hi|].
  cbn [plus]. rewrite suml_total. unfold average. rewrite firstn_length, Nat.min_l by lia. rewrite <- (firstn_skipn (i + 1) vs) at 1. rewrite total_app, Nat.add_1_r. unfold Rdiv. ring.
Qed.

(** Monte Carlo options (C45-C48). *)
From Coq Require Import Reals ZArith QArith Qreals List Bool Lra Lia.
From Verif Require Import Num Py MBase MAmerican MMonte SMonte.
Import ListNotations.
Open Scope R_scope.

(** ** Sums and means *)
Lemma suml_from (l : list R) a : fold_left Rplus l a = a + total l.
Proof. revert a. induction l as [|x l IH]; intro a; cbn; [ring|]. rewrite IH. unfold total. ring. Qed.
Lemma suml_total (l : list R) : suml l = total l.
Proof. unfold suml. cbn [add lit RNum]. rewrite suml_from, Q2R_int. ring. Qed.
Lemma ofnat_INR n : ofnat n = INR n.
Proof. unfold ofnat. cbn. now rewrite <- INR_IZR_INZ. Qed.
Lemma meanl_average (l : list R) : meanl l = average l.
Proof. unfold meanl, average. rewrite suml_total, ofnat_INR. reflexivity. Qed.
Lemma total_app l l' : total (l ++ l') = total l + total l'.
Proof. unfold total in *. induction l as [|x l IH]; cbn; [ring|]. rewrite IH. ring. Qed.
Lemma total_scal a l : total (map (fun x => a * x) l) = a * total l.
Proof. unfold total in *. induction l as [|x l IH]; cbn; [ring|]. rewrite IH. ring. Qed.
Lemma total_plus {A} (f g : A -> R) l : total (map (fun x => f x + g x) l) = total (map f l) + total (map g l).
Proof. unfold total in *. induction l as [|x l IH]; cbn; [ring|]. rewrite IH. ring. Qed.
Lemma total_minus {A} (f g : A -> R) l : total (map (fun x => f x - g x) l) = total (map f l) - total (map g l).
Proof. unfold total in *. induction l as [|x l IH]; cbn; [ring|]. rewrite IH. ring. Qed.
Lemma total_const {A} (c : R) (l : list A) : total (map (fun _ => c) l) = INR (length l) * c.
Proof. induction l as [|x l IH]; [cbn; ring|]. cbn [map total fold_right length]. fold (total (map (fun _ => c) l)). rewrite IH, S_INR. ring. Qed.
Lemma total_le {A} (f g : A -> R) l : (forall x, In x l -> f x <= g x) -> total (map f l) <= total (map g l).
Proof.
  induction l as [|x l IH]; intro H; cbn; [lra|]. generalize (H x (or_introl eq_refl)). 
  assert (total (map f l) <= total (map g l)) by (apply IH; intros; apply H; now right). unfold total in *. lra.
Qed.
Lemma total_opp l : total (map Ropp l) = - total l.
Proof. induction l as [|x l IH]; cbn; [ring|]. unfold total in IH. rewrite IH. ring. Qed.
Lemma len_pos {A} (l : list A) : l <> [] -> 0 < INR (length l).
Proof. intro H. apply lt_0_INR. destruct l; [congruence|cbn; lia]. Qed.
Lemma average_minus {A} (f g : A -> R) l : average (map (fun x => f x - g x) l) = average (map f l) - average (map g l).
Proof. unfold average. rewrite !map_length, total_minus. unfold Rdiv. ring. Qed.
Lemma average_scal {A} a (f : A -> R) l : average (map (fun x => a * f x) l) = a * average (map f l).
Proof. unfold average. rewrite !map_length, <- (map_map f (fun y => a * y)), total_scal. unfold Rdiv. ring. Qed.
Lemma average_const {A} c (l : list A) : l <> [] -> average (map (fun _ => c) l) = c.
Proof. intro H. unfold average. rewrite map_length, total_const. generalize (len_pos l H). intro. field. lra. Qed.
Lemma average_le {A} (f g : A -> R) l : (forall x, In x l -> f x <= g x) -> average (map f l) <= average (map g l).
Proof.
  intro H. unfold average. rewrite !map_length. destruct l as [|x l]; [cbn; lra|].
  apply Rmult_le_compat_r; [left; apply Rinv_0_lt_compat, len_pos; discriminate|]. now apply total_le.
Qed.
Lemma average_ext {A} (f g : A -> R) l : (forall x, In x l -> f x = g x) -> average (map f l) = average (map g l).
Proof. intro H. f_equal. now apply map_ext_in. Qed.

Lemma F2_length {A B} (P : A -> B -> Prop) l l' : Forall2 P l l' -> length l = length l'.
Proof. induction 1; cbn; congruence. Qed.

Lemma pinf_never (x : R) : is_pinf x = false.
Proof.
  unfold is_pinf. toR. replace (Reqb x (x + 1)) with false by (symmetry; unfold Reqb; destruct Req_EM_T; [lra|reflexivity]).
  apply andb_false_r.
Qed.

(** ** The simulation over the reals *)
Section Sim.
Context {St : Type}.
Implicit Types o : mc R St.
Fixpoint all_ok {A B} (f : A -> res B) (l : list A) : res (list B) :=
  match l with [] => Ok [] | x :: l' => bind (f x) (fun y => bind (all_ok f l') (fun ys => Ok (y :: ys))) end.
Lemma sim_from o call n i acc st Es st' pays :
  draws (m_inno o) n st = Ok (Es, st') -> all_ok (mc_loop_payoff o call) Es = Ok pays ->
  sim_mc_from o call n i acc st = Ok (MArray (acc ++ map average pays), st').
Proof.
  revert i acc st Es pays. induction n as [|n IH]; intros i acc st Es pays HD HP; cbn in HD.
  - injection HD as <- <-. cbn in HP. injection HP as <-. cbn. now rewrite app_nil_r.
  - destruct (m_inno o st) as [[E s1]|] eqn:EE; [|discriminate]. destruct (draws (m_inno o) n s1) as [[l s2]|] eqn:ED; [|discriminate].
    injection HD as <- <-. cbn in HP. destruct (mc_loop_payoff o call E) as [p|] eqn:EP; [|discriminate]. cbn in HP.
    destruct (all_ok (mc_loop_payoff o call) l) as [ps|] eqn:EA; [|discriminate]. cbn in HP. injection HP as <-.
    cbn [sim_mc_from]. rewrite EE. cbn [bind fst snd]. rewrite EP. cbn [bind]. rewrite pinf_never.
    rewrite (IH (S i) _ s1 l ps ED EA). rewrite meanl_average, <- app_assoc. reflexivity.
Qed.
Lemma sim_ok o call st Es st' pays : draws (m_inno o) (m_loops o) st = Ok (Es, st') ->
  all_ok (mc_loop_payoff o call) Es = Ok pays -> sim_mc o call st = Ok (MArray (map average pays), st').
Proof. intros. unfold sim_mc. now rewrite (sim_from o call _ _ _ _ _ _ _ H H0). Qed.
Lemma all_ok_map {A B} (f : A -> res B) (g : A -> B) l : (forall x, In x l -> f x = Ok (g x)) -> all_ok f l = Ok (map g l).
Proof.
  induction l as [|x l IH]; intro H; cbn; [reflexivity|]. rewrite H by now left. cbn. rewrite IH by (intros; apply H; now right). reflexivity.
Qed.
End Sim.

(** ** Paths and payoffs *)
Lemma total_affine c d l : total (map (fun e => c + d * e) l) = INR (length l) * c + d * total l.
Proof. rewrite total_plus, total_const, total_scal. ring. Qed.
Lemma terminal_gbm S b s dt row :
  S * exp (suml (map (fun e => (b - s ^ 2 / 2) * dt + s * sqrt dt * e) row)) = gbm S b s dt row.
Proof.
  unfold gbm. rewrite suml_total, total_affine. do 2 f_equal. ring.
Qed.
Lemma cumsum_from_spec (l : list R) acc : cumsum_from acc l = map (fun k => acc + total (firstn k l)) (seq 1 (length l)).
Proof.
  revert acc. induction l as [|x l IH]; intro acc; [reflexivity|]. cbn [cumsum_from length seq map]. f_equal.
  - cbn [firstn]. unfold total. cbn. ring.
  - rewrite IH. rewrite <- (seq_shift _ 1), map_map. apply map_ext. intro k. cbn [firstn]. unfold total. cbn [fold_right]. cbn [add RNum]. ring.
Qed.
Lemma average_gbm S b s dt row :
  meanl (map (fun c => S * exp c) (cumsum (map (fun e => (b - s ^ 2 / 2) * dt + s * sqrt dt * e) row))) = gbm_average S b s dt row.
Proof.
  unfold gbm_average, cumsum. rewrite meanl_average, cumsum_from_spec, map_map, map_length. f_equal. apply map_ext. intro k.
  rewrite firstn_map. rewrite <- terminal_gbm, suml_total. toR. do 2 f_equal. ring.
Qed.
Definition pay_of (asian : bool) : bool -> payoff_args R -> res (list R) := if asian then asian_payoff else vanilla_payoff.
Lemma payoff_value asian call E S K t r b s dt :
  pay_of asian call (mkPay (wiener_path E (Some s) dt b) S K t r) =
  Ok (map (fun row => discounted call K t r (underlying asian S b s dt row)) E).
Proof.
  unfold pay_of, vanilla_payoff, asian_payoff, terminal_prices, average_prices, wiener_path, need. cbn [of_opt bind p_path p_S p_K p_t p_r].
  destruct asian; cbn [bind of_opt p_path p_S p_K p_t p_r]; f_equal; rewrite !map_map; apply map_ext; intro row; unfold discounted, underlying.
  - rewrite <- average_gbm. toR. f_equal. rewrite Rmax_comm. destruct call; reflexivity.
  - rewrite <- terminal_gbm. toR. f_equal. rewrite Rmax_comm. destruct call; reflexivity.
Qed.

(** ** Variance reduction *)
Lemma total_dev l : total (map (fun x => x - average l) l) = 0.
Proof.
  destruct l as [|x l]; [reflexivity|]. rewrite total_minus, total_const, map_id. unfold average.
  pose proof (len_pos (x :: l) ltac:(discriminate)). field. lra.
Qed.
Definition var (l : list R) : R := average (map (fun x => (x - average l) ^ 2) l).
Lemma total_sq_pos {A} (f : A -> R) l x : In x l -> f x <> 0 -> 0 < total (map (fun x => f x ^ 2) l).
Proof.
  intros HI Hx. induction l as [|y l IH]; [destruct HI|].
  assert (Hn : 0 <= total (map (fun x => f x ^ 2) l)).
  { clear. induction l as [|z l IH]; cbn; [lra|]. generalize (pow2_ge_0 (f z)). unfold total in *. cbn in *. lra. }
  unfold total in *. cbn [map fold_right]. generalize (pow2_ge_0 (f y)). destruct HI as [->|HI].
  - assert (0 < f x ^ 2) by (rewrite <- Rsqr_pow2; now apply Rsqr_pos_lt). lra.
  - specialize (IH HI). lra.
Qed.
Lemma var_pos l x y : In x l -> In y l -> x <> y -> 0 < var l.
Proof.
  intros Hx Hy Hn. unfold var, average at 1. apply Rdiv_lt_0_compat; [|apply len_pos; destruct l; [destruct Hx|discriminate]].
  destruct (Req_dec (x - average l) 0) as [E|E].
  - apply (total_sq_pos (fun x => x - average l) l y Hy). lra.
  - apply (total_sq_pos (fun x => x - average l) l x Hx E).
Qed.
Lemma stdl_var (l : list R) : stdl l = sqrt (var l).
Proof. unfold stdl, var. rewrite !meanl_average. cbn [sqrn powi sub RNum]. f_equal. Qed.
Lemma concat_map_map {A B} (f : A -> B) m : concat (map (map f) m) = map f (concat m).
Proof. symmetry. apply concat_map. Qed.
Lemma standardize_spec m : varied m -> standardised m (mc_standardize m).
Proof.
  intros (x & y & Hx & Hy & Hn). unfold mc_standardize. rewrite meanl_average, stdl_var. cbn [sub div RNum].
  set (l := concat m) in *. pose proof (var_pos l x y Hx Hy Hn) as HV.
  assert (Hs : 0 < sqrt (var l)) by now apply sqrt_lt_R0.
  assert (Hl : 0 < INR (length l)) by (apply len_pos; destruct l; [destruct Hx|discriminate]).
  split; [exists (average l), (sqrt (var l)); auto|]. rewrite concat_map_map. fold l. split.
  - transitivity (average (map (fun x => / sqrt (var l) * (x - average l)) l)); [apply average_ext; intros; unfold Rdiv; ring|].
    rewrite average_scal. unfold average at 1. rewrite total_dev. unfold Rdiv. ring.
  - rewrite map_map. transitivity (average (map (fun x => / (var l) * (x - average l) ^ 2) l)).
    + apply average_ext. intros z _. rewrite <- (sqrt_sqrt (var l)) at 2 by lra. field. lra.
    + rewrite average_scal. fold (var l). field. lra.
Qed.

Section Thm.
Context {St : Type}.
Lemma innov_treated (o : mc R St) E : (m_std o = true -> varied (if m_anti o then mirrored E else E)) -> treated (m_anti o) (m_std o) E (mc_innovations o E).
Proof.
  intro H. unfold treated, mc_innovations. destruct (m_std o); [|reflexivity]. apply standardize_spec. now apply H.
Qed.
End Thm.

(*@ C45_price | The value of a Monte Carlo option with WienerPath and either payoff, for every sampler and every drawn innovations: call() and put() return one entry per loop, each the average over the paths of that loop of the discounted payoff on the geometric Brownian motion driven by the (antithetic and/or standardised, as requested) innovations. *)
Lemma mc_price_thm : forall (St : Type) (inno : nat -> nat -> St -> res (matrix R * St)) (asian trace anti std : bool)
    (loops len paths : nat) (S K t r b s : R) (o : mc R St) (st st' : St) (Es : list (matrix R)),
  MonteCarloOption loops len paths S K t r b (Some s) inno wiener_path (if asian then asian_payoff else vanilla_payoff) trace anti std = Ok o ->
  draws (inno paths len) loops st = Ok (Es, st') ->
  (std = true -> Forall (fun E => varied (if anti then mirrored E else E)) Es) ->
  exists Es', Forall2 (treated anti std) Es Es' /\ forall call, exists tr,
    mc_price call o st = Ok (MArray (map (estimate asian call S K t r b s (t / INR len)) Es'), tr, st').
Proof.
  intros St inno asian trace anti std loops len paths S K t r b s o st st' Es Ho HD HV.
  unfold MonteCarloOption in Ho. destruct (Nat.eqb len 0); [discriminate|]. injection Ho as <-. set (o := mkMc _ _ _ _ _ _ _ _ _ _ _ _ _ _ _ _).
  exists (map (mc_innovations o) Es).
  assert (HF : Forall2 (treated anti std) Es (map (mc_innovations o) Es)).
  { clear - HV. revert HV. induction Es as [|E Es IH]; intro HV; constructor.
    - apply (innov_treated o E). cbn [m_std m_anti o]. intro Hs. specialize (HV Hs). now inversion HV.
    - apply IH. intro Hs. specialize (HV Hs). now inversion HV. }
  split; [exact HF|]. intro call.
  assert (HP : all_ok (mc_loop_payoff o call) Es = Ok (map (fun E => map (fun row => discounted call K t r (underlying asian S b s (t / INR len) row)) (mc_innovations o E)) Es)).
  { apply all_ok_map. intros E _. unfold mc_loop_payoff, mc_loop_path. cbn [m_pay m_path m_sigma m_b m_S m_K m_t m_r o].
    change (m_dt o) with (t / ofnat len)%num. rewrite ofnat_INR. apply (payoff_value asian). }
  pose proof (sim_ok o call st Es st' _ HD HP) as HS.
  unfold mc_price. rewrite HS. cbn [bind fst snd m_trace o print_trace]. 
  destruct trace; eexists; cbn [bind]; rewrite !map_map; reflexivity.
Qed.

(*@ C45_parity | Put-call parity per loop: run from the same state of the sampler (same innovations), the call and put estimates of every loop differ by exactly the discounted difference of the average underlying over the paths and the strike. *)
Lemma mc_parity : forall (St : Type) (inno : nat -> nat -> St -> res (matrix R * St)) (asian trace anti std : bool)
    (loops len paths : nat) (S K t r b s : R) (o : mc R St) (st st' : St) (Es : list (matrix R)),
  MonteCarloOption loops len paths S K t r b (Some s) inno wiener_path (if asian then asian_payoff else vanilla_payoff) trace anti std = Ok o ->
  draws (inno paths len) loops st = Ok (Es, st') ->
  (std = true -> Forall (fun E => varied (if anti then mirrored E else E)) Es) -> Forall (fun E => E <> []) Es ->
  exists Es' cs ps tr tr', Forall2 (treated anti std) Es Es' /\
    mc_call o st = Ok (MArray cs, tr, st') /\ mc_put o st = Ok (MArray ps, tr', st') /\ length cs = loops /\
    map (fun cp => fst cp - snd cp) (combine cs ps) =
    map (fun E => exp (- r * t) * (average (map (underlying asian S b s (t / INR len)) E) - K)) Es'.
Proof.
  intros St inno asian trace anti std loops len paths S K t r b s o st st' Es Ho HD HV HN.
  destruct (mc_price_thm St inno asian trace anti std loops len paths S K t r b s o st st' Es Ho HD HV) as (Es' & F & C).
  destruct (C true) as (tr & C1). destruct (C false) as (tr' & C2). exists Es'. do 4 eexists.
  split; [exact F|]. split; [exact C1|]. split; [exact C2|]. split.
  - rewrite map_length. rewrite <- (F2_length _ _ _ F). clear - HD. revert st Es HD. induction loops as [|n IH]; intros st Es HD; cbn in HD.
    + now injection HD as <- <-.
    + destruct (inno paths len st) as [[m s1]|]; [|discriminate]. destruct (draws _ n s1) as [[l s2]|] eqn:E; [|discriminate].
      injection HD as <- <-. cbn. f_equal. now apply (IH s1).
  - assert (HN' : Forall (fun E => E <> []) Es').
    { clear - F HN. induction F as [|E E' Es Es' HT F IH]; constructor; inversion HN; subst; auto.
      unfold treated in HT. assert (HE : (if anti then mirrored E else E) <> []) by (destruct anti; [destruct E; [contradiction|discriminate]|assumption]).
      destruct std; [|now subst]. destruct HT as ((c & d & _ & ->) & _). destruct (if anti then _ else _); [contradiction|discriminate]. }
    clear - HN'. induction Es' as [|E Es' IH]; [reflexivity|]. inversion HN'; subst. cbn [map combine fst snd]. f_equal; [|auto].
    unfold estimate. rewrite <- average_minus. set (U := underlying asian S b s (t / INR len)).
    transitivity (average (map (fun eps => exp (- r * t) * (U eps - K)) E)).
    + apply average_ext. intros e _. unfold discounted. rewrite <- Rmult_minus_distr_l. f_equal. fold (U e). unfold Rmax. repeat destruct Rle_dec; lra.
    + rewrite average_scal, average_minus, average_const by assumption. reflexivity.
Qed.

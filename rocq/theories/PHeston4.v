(** Heston-Nandi GARCH series: simulation, filter, likelihood, fit (C52, C53, C54). *)
From Coq Require Import Reals ZArith QArith Qreals Lra Lia.
From Coquelicot Require Import Coquelicot.
From Coq Require Import List Bool FunctionalExtensionality.
From Verif Require Import Num Py MAmerican MMonte SMonte PMonte MHeston SHeston PCnd PCnd2 PGauss PMonte4 PCplx PHnGauss PHeston PHeston2.
Import ListNotations.
Open Scope R_scope.

Section P.
Variables lamb omega alpha beta gamma rf : R.
Hypothesis Ho : 0 < omega.
Hypothesis Ha : 0 <= alpha.
Hypothesis Hb : 0 <= beta.
Local Notation next := (hn_next omega alpha beta gamma).
Local Notation rets := (hn_returns lamb omega alpha beta gamma rf).
Local Notation vars := (hn_variances omega alpha beta gamma).
Lemma next_pos h z : 0 <= h -> 0 < next h z.
Proof. intro Hh. unfold hn_next. generalize (pow2_ge_0 (z - gamma * sqrt h)). intro. nra. Qed.
Lemma vars_length zs : forall h, length (vars h zs) = length zs.
Proof. induction zs as [|z zs IH]; intro h; cbn; [reflexivity|now rewrite IH]. Qed.
Lemma rets_length zs : forall h, length (rets h zs) = length zs.
Proof. induction zs as [|z zs IH]; intro h; cbn; [reflexivity|now rewrite IH]. Qed.
Lemma next_model h z : (omega + alpha * (z - gamma * sqrn h) ^ 2 + beta * h)%num = next h z.
Proof. reflexivity. Qed.
(** the filter's recursion inverts the process *)
Lemma filter_from zs : forall h z, 0 < h -> hn_filter_from lamb omega alpha beta gamma rf h z (rets (next h z) zs) = combine (vars (next h z) zs) zs.
Proof.
  induction zs as [|z' zs IH]; intros h z Hh; [reflexivity|]. cbn [hn_returns hn_variances hn_filter_from combine]. rewrite next_model.
  assert (Hn := next_pos h z ltac:(lra)). assert (Hs : 0 < sqrt (next h z)) by now apply sqrt_lt_R0.
  assert (E : (((rf + lamb * next h z + sqrt (next h z) * z')%R - rf - lamb * next h z) / sqrn (next h z))%num = z').
  { toR. field. lra. }
  rewrite E, IH by exact Hn. reflexivity.
Qed.
(** and every series is the return series of some innovations *)
Fixpoint innov (h : R) (x : list R) : list R :=
  match x with [] => [] | y :: x' => let z := (y - rf - lamb * h) / sqrt h in z :: innov (next h z) x' end.
Lemma innov_rets x : forall h, 0 < h -> rets h (innov h x) = x.
Proof.
  induction x as [|y x IH]; intros h Hh; [reflexivity|]. cbn [innov hn_returns]. assert (Hs : 0 < sqrt h) by now apply sqrt_lt_R0.
  rewrite IH by (apply next_pos; lra). f_equal. field. lra.
Qed.
Lemma rets_innov zs : forall h, 0 < h -> innov h (rets h zs) = zs.
Proof.
  induction zs as [|z zs IH]; intros h Hh; [reflexivity|]. cbn [innov hn_returns]. assert (Hs : 0 < sqrt h) by now apply sqrt_lt_R0.
  assert (E : (rf + lamb * h + sqrt h * z - rf - lamb * h) / sqrt h = z) by (field; lra). rewrite E, IH by (apply next_pos; lra). reflexivity.
Qed.
Hypothesis Hp : alpha * gamma ^ 2 + beta < 1.
Let h0 := (omega + alpha) / (1 - beta - alpha * gamma ^ 2).
Lemma h0_pos : 0 < h0. Proof. apply Rdiv_lt_0_compat; lra. Qed.
Lemma h0_model : ((omega + alpha) / (lit 1 - alpha * gamma * gamma - beta))%num = h0.
Proof. unfold h0. toR. apply f_equal. cbn. lra. Qed.
Lemma filter_all zs : zs <> [] -> hn_filter lamb omega alpha beta gamma rf (rets h0 zs) = Ok (combine (vars h0 zs) zs).
Proof.
  destruct zs as [|z zs]; [easy|]. intros _. cbn [hn_returns hn_filter]. rewrite h0_model. assert (H0 := h0_pos). assert (Hs : 0 < sqrt h0) by now apply sqrt_lt_R0.
  assert (E : (((rf + lamb * h0 + sqrt h0 * z)%R - rf - lamb * h0) / sqrn h0)%num = z) by (toR; field; lra).
  rewrite E, filter_from by exact H0. reflexivity.
Qed.
Lemma sim_all zs k : forall h z, length zs = k -> sim_from lamb omega alpha beta gamma rf h z k zs = Ok (rets (next h z) zs).
Proof.
  revert k. induction zs as [|z' zs IH]; intros k h z Hk; subst k; [reflexivity|]. cbn [length sim_from hn_returns]. rewrite next_model, IH by reflexivity. reflexivity.
Qed.
Lemma h0_stat : stationary omega alpha beta gamma h0.
Proof. apply stationary_iff; [exact Hp|left; exact h0_pos|reflexivity]. Qed.
End P.

Lemma combine_snd {A B} (l : list A) : forall l' : list B, length l = length l' -> map snd (combine l l') = l'.
Proof. induction l; intros [|b l']; cbn; intro E; try easy. f_equal. apply IHl. now injection E. Qed.
Lemma combine_fst {A B} (l : list A) : forall l' : list B, length l = length l' -> map fst (combine l l') = l.
Proof. induction l; intros [|b l']; cbn; intro E; try easy. f_equal. apply IHl. now injection E. Qed.
Lemma stat_h0 omega alpha beta gamma h : alpha * gamma ^ 2 + beta < 1 -> 0 <= h -> stationary omega alpha beta gamma h -> h = (omega + alpha) / (1 - beta - alpha * gamma ^ 2).
Proof. intros H1 H2. apply stationary_iff; assumption. Qed.

(*@ C52_stationary | The variance every series starts from is the only one equal to its own expected successor *)
Lemma garch_stationary : forall omega alpha beta gamma, 0 < omega -> 0 <= alpha -> 0 <= beta -> alpha * gamma ^ 2 + beta < 1 ->
  exists h, 0 < h /\ stationary omega alpha beta gamma h /\ (forall h', 0 <= h' -> stationary omega alpha beta gamma h' -> h' = h) /\
  forall normal lamb rf z, hngarch_sim normal lamb (Some omega) (Some alpha) beta gamma rf 1 0 (Some [z]) None = Ok [rf + lamb * h + sqrt h * z].
Proof.
  intros omega alpha beta gamma Ho Ha Hb Hp. exists ((omega + alpha) / (1 - beta - alpha * gamma ^ 2)). split; [now apply h0_pos|]. split; [now apply h0_stat|]. split.
  - intros h' H0 Hs. now apply stat_h0.
  - intros. unfold hngarch_sim, need, of_opt, bind. cbn [Nat.ltb Nat.leb Nat.sub Nat.add sim_from skipn]. rewrite h0_model by exact Hp. reflexivity.
Qed.
(*@ C52_simulation | A simulated series is the return series of the Heston-Nandi process driven by the innovations, started at the stationary variance, with the burn-in dropped: the given innovations are used after the given or sampled burn-in innovations *)
Lemma garch_sim : forall normal lamb omega alpha beta gamma rf h n n_start inno inno_start,
  0 < omega -> 0 <= alpha -> 0 <= beta -> alpha * gamma ^ 2 + beta < 1 -> 0 <= h -> stationary omega alpha beta gamma h ->
  (1 <= n + n_start)%nat ->
  let zs := match inno with Some z => z | None => normal 0%nat n end in
  let start := match inno_start with Some s => s | None => if Nat.ltb 0 n_start then normal 1%nat n_start else [] end in
  length zs = n -> length start = n_start ->
  hngarch_sim normal lamb (Some omega) (Some alpha) beta gamma rf n n_start inno inno_start =
    Ok (skipn n_start (hn_returns lamb omega alpha beta gamma rf h (start ++ zs))).
Proof.
  intros normal lamb omega alpha beta gamma rf h n n_start inno inno_start Ho Ha Hb Hp H0 Hs Hn zs start Hz Hst.
  apply stat_h0 in Hs; [|exact Hp|exact H0].
  unfold hngarch_sim, need, of_opt, bind. fold zs.
  assert (EZ : match (match inno_start with None => if Nat.ltb 0 n_start then Some (normal 1%nat n_start) else None | Some s => Some s end) with None => zs | Some s => (s ++ zs)%list end = (start ++ zs)%list).
  { unfold start. destruct inno_start; [reflexivity|]. destruct (Nat.ltb 0 n_start); reflexivity. }
  assert (EZ' : match (match inno_start with None => if Nat.ltb 0 n_start then Some (normal 1%nat n_start) else None | s => s end) with None => zs | Some s => (s ++ zs)%list end = (start ++ zs)%list).
  { rewrite <- EZ. destruct inno_start; reflexivity. }
  rewrite EZ'. assert (HL : length (start ++ zs) = (n_start + n)%nat) by (rewrite app_length; lia).
  destruct (start ++ zs)%list as [|z0 l]; [cbn in HL; lia|]. cbn [length] in HL. rewrite h0_model by exact Hp. rewrite <- Hs.
  rewrite sim_all by lia. reflexivity.
Qed.

(** ** The likelihood *)
Lemma logistic_unit : @logistic R _ = to_unit.
Proof. apply FunctionalExtensionality.functional_extensionality. intro e. unfold logistic, to_unit. toR. reflexivity. Qed.
Lemma logit_line : @logit R _ = to_line.
Proof. apply FunctionalExtensionality.functional_extensionality. intro e. unfold logit, to_line. toR. reflexivity. Qed.
Lemma logistic_range (x : R) : 0 < logistic x < 1.
Proof.
  generalize (exp_pos (- x)). intro H. assert (E : logistic x = / (1 + exp (- x))) by (unfold logistic; toR; unfold Rdiv; lra). rewrite E. split.
  - apply Rinv_0_lt_compat. lra.
  - rewrite <- Rinv_1. apply Rinv_lt_contravar; lra.
Qed.
Lemma logistic_logit p : 0 < p < 1 -> logistic (logit p) = p.
Proof.
  intro Hp. unfold logistic, logit. toR. rewrite Ropp_involutive, exp_ln. { field. lra. }
  apply Rdiv_lt_0_compat; lra.
Qed.
Lemma norm_pdf_R (z : R) : norm_pdf z = npdf z.
Proof. unfold norm_pdf, npdf. toR. reflexivity. Qed.
Lemma inverted_true b : inverted b = true. Proof. destruct b; reflexivity. Qed.
Lemma llh_core (lamb e1 e2 e3 gamma rf : R) sym x : logistic e2 * gamma ^ 2 + logistic e3 < 1 -> x <> [] ->
  let h := (logistic e1 + logistic e2) / (1 - logistic e3 - logistic e2 * gamma ^ 2) in
  exists zs, zs <> [] /\ hn_returns lamb (logistic e1) (logistic e2) (logistic e3) gamma rf h zs = x /\
    let hs := hn_variances (logistic e1) (logistic e2) (logistic e3) gamma h zs in
    llhHNGarch [lamb; e1; e2; e3; gamma] sym rf x = Ok (mkFit (- log_likelihood hs zs) zs hs).
Proof.
  intros Hp Hx h. pose proof (logistic_range e1). pose proof (logistic_range e2). pose proof (logistic_range e3).
  assert (Hh : 0 < h) by (apply Rdiv_lt_0_compat; lra).
  set (zs := innov lamb (logistic e1) (logistic e2) (logistic e3) gamma rf h x).
  assert (HR : hn_returns lamb (logistic e1) (logistic e2) (logistic e3) gamma rf h zs = x) by (apply innov_rets; lra).
  assert (Hz : zs <> []) by (intro E; rewrite E in HR; cbn in HR; congruence).
  exists zs. split; [exact Hz|]. split; [exact HR|]. cbv zeta.
  unfold llhHNGarch, item. cbn [nth_error of_opt bind]. rewrite inverted_true. rewrite <- HR at 1. unfold h. rewrite filter_all by (lra || assumption). fold h. cbn [bind].
  assert (HL : length (hn_variances (logistic e1) (logistic e2) (logistic e3) gamma h zs) = length zs) by apply vars_length.
  rewrite combine_snd, combine_fst by exact HL. apply f_equal. apply (f_equal (fun l => mkFit l zs _)). rewrite suml_total. unfold log_likelihood. cbn [opp RNum]. do 2 f_equal.
  apply map_ext. intro q. rewrite norm_pdf_R. reflexivity.
Qed.

(*@ C52_round_trip | Evaluating the likelihood of a simulated series at the parameters it was simulated with returns exactly the innovations and the variances of the simulation, and minus their log likelihood *)
Lemma garch_round_trip : forall normal lamb omega alpha beta gamma rf h zs symmetric,
  0 < omega < 1 -> 0 < alpha < 1 -> 0 < beta < 1 -> alpha * gamma ^ 2 + beta < 1 -> zs <> [] ->
  0 <= h -> stationary omega alpha beta gamma h ->
  let hs := hn_variances omega alpha beta gamma h zs in
  exists x, hngarch_sim normal lamb (Some omega) (Some alpha) beta gamma rf (length zs) 0 (Some zs) None = Ok x /\
    llhHNGarch [lamb; to_line omega; to_line alpha; to_line beta; gamma] symmetric rf x = Ok (mkFit (- log_likelihood hs zs) zs hs).
Proof.
  rewrite <- ?logistic_unit, <- ?logit_line.
  intros normal lamb omega alpha beta gamma rf h zs symmetric Ho Ha Hb Hp Hz H0 Hs hs.
  assert (HL : (1 <= length zs)%nat) by (destruct zs; [easy|cbn; lia]).
  eexists. split. { apply (garch_sim normal lamb omega alpha beta gamma rf h (length zs) 0 (Some zs) None); try lra; try assumption; try reflexivity. lia. }
  apply stat_h0 in Hs; [|exact Hp|exact H0]. cbn [Nat.ltb Nat.leb app skipn].
  assert (Hx : hn_returns lamb omega alpha beta gamma rf h zs <> []) by (destruct zs; [easy|discriminate]).
  destruct (llh_core lamb (logit omega) (logit alpha) (logit beta) gamma rf symmetric _ ltac:(rewrite !logistic_logit by assumption; exact Hp) Hx) as (zs' & _ & HR & HE).
  rewrite !logistic_logit in HR, HE by assumption. rewrite <- Hs in HR, HE.
  assert (Hh : 0 < h) by (rewrite Hs; apply Rdiv_lt_0_compat; lra).
  assert (E : zs' = zs). { rewrite <- (rets_innov lamb omega alpha beta gamma rf ltac:(lra) ltac:(lra) ltac:(lra) zs' h Hh), HR. apply rets_innov; lra. }
  subst zs'. exact HE.
Qed.
(*@ C52_long_refuted | Given more innovations than n the series has the wrong length: the surplus innovations are returned as if they were returns *)
Lemma garch_long : forall normal lamb omega alpha beta gamma rf zs z more, 
  0 < omega -> 0 <= alpha -> 0 <= beta -> alpha * gamma ^ 2 + beta < 1 ->
  exists x, length x = length (z :: zs) /\
    hngarch_sim normal lamb (Some omega) (Some alpha) beta gamma rf (length (z :: zs)) 0 (Some (z :: zs ++ more)%list) None = Ok (x ++ more)%list.
Proof.
  intros normal lamb omega alpha beta gamma rf zs z more Ho Ha Hb Hp. set (h := (omega + alpha) / (1 - beta - alpha * gamma ^ 2)).
  exists (hn_returns lamb omega alpha beta gamma rf h (z :: zs)). split; [apply rets_length|].
  unfold hngarch_sim, need, of_opt, bind. cbn [Nat.ltb Nat.leb]. rewrite h0_model by exact Hp. fold h. cbn [length Nat.add Nat.sub]. rewrite Nat.sub_0_r. cbn [hn_returns app].
  assert (G : forall zs h z, sim_from lamb omega alpha beta gamma rf h z (length zs) (zs ++ more) = Ok (hn_returns lamb omega alpha beta gamma rf (hn_next omega alpha beta gamma h z) zs ++ more)%list).
  { clear. induction zs as [|z' zs IH]; intros h z; [cbn; now destruct more|]. cbn [length sim_from hn_returns app]. rewrite next_model, IH. reflexivity. }
  rewrite G. reflexivity.
Qed.
(*@ C52_short | Given fewer innovations than n the simulation raises IndexError; without omega or alpha (the default) it raises TypeError *)
Lemma garch_short : forall normal lamb omega alpha beta gamma rf n zs, (length zs < n)%nat ->
  hngarch_sim normal lamb (Some omega) (Some alpha) beta gamma rf n 0 (Some zs) None = (Err IndexError : res (list R)) /\
  (forall inno start k, hngarch_sim normal lamb None (Some alpha) beta gamma rf n k inno start = (Err TypeError : res (list R)) /\
     hngarch_sim normal lamb (Some omega) None beta gamma rf n k inno start = (Err TypeError : res (list R))).
Proof.
  intros normal lamb omega alpha beta gamma rf n zs Hn. split; [|intros; split; reflexivity].
  unfold hngarch_sim, need, of_opt, bind. cbn [Nat.ltb Nat.leb Nat.add]. destruct zs as [|z zs]; [reflexivity|]. cbn [length] in Hn.
  assert (G : forall zs k h z, (length zs < k)%nat -> sim_from lamb omega alpha beta gamma rf h z k zs = Err IndexError).
  { clear. induction zs as [|z' zs IH]; intros [|k] h z Hk; cbn [length] in Hk; try lia; [reflexivity|]. cbn [sim_from]. rewrite IH by lia. reflexivity. }
  rewrite G by lia. reflexivity.
Qed.

(*@ C53_symmetric_refuted | symmetric=True does not switch the leverage parameter off: the likelihood is the same as with symmetric=False, and the variances still depend on gamma *)
Lemma garch_symmetric : forall (x : list R) rf,
  (forall x0, llhHNGarch x0 true rf x = llhHNGarch x0 false rf x) /\
  (x <> [] -> forall lamb e1 e2 e3 gamma gamma', gamma ^ 2 <> gamma' ^ 2 ->
     to_unit e2 * gamma ^ 2 + to_unit e3 < 1 -> to_unit e2 * gamma' ^ 2 + to_unit e3 < 1 ->
     exists fit fit', llhHNGarch [lamb; e1; e2; e3; gamma] true rf x = Ok fit /\ llhHNGarch [lamb; e1; e2; e3; gamma'] true rf x = Ok fit' /\ f_h fit <> f_h fit').
Proof.
  rewrite <- ?logistic_unit, <- ?logit_line.
  intros x rf. split. { intro x0. unfold llhHNGarch. rewrite !inverted_true. reflexivity. }
  intros Hx lamb e1 e2 e3 gamma gamma' Hg H1 H2.
  destruct (llh_core lamb e1 e2 e3 gamma rf true x H1 Hx) as (zs & Hz & _ & HE). destruct (llh_core lamb e1 e2 e3 gamma' rf true x H2 Hx) as (zs' & Hz' & _ & HE').
  eexists _, _. split; [exact HE|]. split; [exact HE'|]. cbn [f_h]. destruct zs as [|z zs]; [easy|]. destruct zs' as [|z' zs']; [easy|]. cbn [hn_variances]. intro E. injection E as E _.
  pose proof (logistic_range e1). pose proof (logistic_range e2). pose proof (logistic_range e3). set (a := logistic e2) in *. set (b := logistic e3) in *. set (w := logistic e1) in *.
  assert (X : (w + a) * (1 - b - a * gamma' ^ 2) = (w + a) * (1 - b - a * gamma ^ 2)).
  { apply Rmult_eq_reg_r with (/ ((1 - b - a * gamma ^ 2) * (1 - b - a * gamma' ^ 2))); [|apply Rinv_neq_0_compat, Rmult_integral_contrapositive; lra].
    transitivity ((w + a) / (1 - b - a * gamma ^ 2)); [field; lra|]. transitivity ((w + a) / (1 - b - a * gamma' ^ 2)); [exact E|field; lra]. }
  apply Rmult_eq_reg_l in X; [|lra]. apply Hg. assert (a * gamma ^ 2 = a * gamma' ^ 2) by lra. apply Rmult_eq_reg_l with a; lra.
Qed.

(** ** The fit *)
Lemma fit_inv minimize (x : list R) lamb omega alpha beta gamma rf sym fit : hngarch_fit minimize x lamb omega alpha beta gamma rf sym = Ok fit ->
  let om := match omega with None => varl x | Some w => w end in
  let al := match alpha with None => (lit 0.1 * om)%num | Some a => a end in
  let llh p := rmap f_llh (llhHNGarch p sym rf x) in
  let start := [lamb; logit om; logit al; logit beta; gamma] in
  exists est fn final e0 e1 e2 e3 e4 rest,
    llh start = Ok (g_value fit) /\ minimize llh start = Ok (est, fn) /\ est = e0 :: e1 :: e2 :: e3 :: e4 :: rest /\ llhHNGarch est sym rf x = Ok final /\
    g_minimum fit = (- fn + ofnat (List.length x) * sqrn (lit 2 * pinum))%num /\ g_h fit = f_h final /\ g_z fit = f_z final /\
    g_lamb fit = e0 /\ g_omega fit = logistic e1 /\ g_alpha fit = logistic e2 /\ g_beta fit = logistic e3 /\ g_gamma fit = (if sym then lit 0 else e4) /\ g_rf fit = rf /\
    g_persistence fit = (g_beta fit + g_alpha fit * g_gamma fit * g_gamma fit)%num /\ g_sigma2 fit = ((g_omega fit + g_alpha fit) / (lit 1 - g_persistence fit))%num /\
    g_estimate fit = e0 :: logistic e1 :: logistic e2 :: logistic e3 :: g_gamma fit :: rest.
Proof.
  unfold hngarch_fit. rewrite inverted_true. cbn [app]. intros H. cbv zeta in H |- *.
  set (om := match omega with None => varl x | Some w => w end) in *. set (al := match alpha with None => (lit 0.1 * om)%num | Some a => a end) in *.
  set (llh := fun p => rmap f_llh (llhHNGarch p sym rf x)) in *. set (start := [lamb; logit om; logit al; logit beta; gamma]) in *.
  change (rmap f_llh (llhHNGarch start sym rf x)) with (llh start) in H.
  destruct (llh start) as [value|e] eqn:EV; [|discriminate]. cbn [bind] in H.
  destruct (minimize llh start) as [[est fn]|e] eqn:EM; [|discriminate]. cbn [bind] in H.
  destruct (llhHNGarch est sym rf x) as [final|e] eqn:EF; [|discriminate]. cbn [bind] in H.
  destruct est as [|e0 [|e1 [|e2 [|e3 [|e4 rest]]]]]; try discriminate.
  unfold item in H. cbn [nth_error of_opt bind set_item] in H.
  assert (EG : item (if sym then e0 :: logistic e1 :: logistic e2 :: logistic e3 :: lit 0 :: rest else e0 :: logistic e1 :: logistic e2 :: logistic e3 :: e4 :: rest) 4 = Ok (if sym then lit 0 else e4)) by (destruct sym; reflexivity).
  exists (e0 :: e1 :: e2 :: e3 :: e4 :: rest), fn, final, e0, e1, e2, e3, e4, rest.
  destruct sym; cbn [nth_error of_opt bind] in H; apply Ok_inj in H; subst fit; cbn [g_value g_minimum g_h g_z g_lamb g_omega g_alpha g_beta g_gamma g_rf g_persistence g_sigma2 g_estimate]; repeat split; try assumption; reflexivity.
Qed.
Lemma llh_rest (e0 e1 e2 e3 e4 : R) rest sym rf x : llhHNGarch (e0 :: e1 :: e2 :: e3 :: e4 :: rest) sym rf x = llhHNGarch [e0; e1; e2; e3; e4] sym rf x.
Proof. reflexivity. Qed.

(*@ C53_fit | A fit with symmetric=False is consistent with itself: omega, alpha, beta lie between 0 and 1 and, when the reported persistence is below 1, the reported sigma2 is the stationary variance, and the reported innovations and variances are those of the process that produces the data under the reported parameters *)
Lemma garch_fit_ok : forall minimize x lamb omega alpha beta gamma rf fit, hngarch_fit minimize x lamb omega alpha beta gamma rf false = Ok fit ->
  0 < g_omega fit < 1 /\ 0 < g_alpha fit < 1 /\ 0 < g_beta fit < 1 /\ g_persistence fit = g_beta fit + g_alpha fit * g_gamma fit ^ 2 /\
  (g_persistence fit < 1 ->
   stationary (g_omega fit) (g_alpha fit) (g_beta fit) (g_gamma fit) (g_sigma2 fit) /\ 0 < g_sigma2 fit /\
   hn_returns (g_lamb fit) (g_omega fit) (g_alpha fit) (g_beta fit) (g_gamma fit) (g_rf fit) (g_sigma2 fit) (g_z fit) = x /\
   g_h fit = hn_variances (g_omega fit) (g_alpha fit) (g_beta fit) (g_gamma fit) (g_sigma2 fit) (g_z fit)).
Proof.
  intros minimize x lamb omega alpha beta gamma rf fit H. apply fit_inv in H. cbv zeta in H.
  destruct H as (est & fn & final & e0 & e1 & e2 & e3 & e4 & rest & _ & _ & Ee & EF & _ & Eh & Ez & E0 & E1 & E2 & E3 & E4 & Er & Ep & Es & _).
  pose proof (logistic_range e1). pose proof (logistic_range e2). pose proof (logistic_range e3). rewrite E1, E2, E3. 
  assert (EP : g_persistence fit = logistic e3 + logistic e2 * g_gamma fit ^ 2) by (rewrite Ep, E2, E3; cbn; ring).
  repeat (split; [assumption|]). intro HP. rewrite EP in HP. rewrite E4 in *.
  assert (Hx : x <> []). { intro Hx. subst x est. discriminate. }
  subst est. rewrite llh_rest in EF. destruct (llh_core e0 e1 e2 e3 e4 rf false x ltac:(lra) Hx) as (zs & Hz & HR & HE). rewrite HE in EF. apply Ok_inj in EF. subst final. cbn [f_h f_z] in Eh, Ez.
  assert (ES : g_sigma2 fit = (logistic e1 + logistic e2) / (1 - logistic e3 - logistic e2 * e4 ^ 2)).
  { rewrite Es, E1, E2, EP. toR. apply f_equal. lra. }
  rewrite ES, Eh, Ez, E0, Er. split; [|split]; [apply h0_stat; lra|apply h0_pos; lra|]. split; [exact HR|reflexivity].
Qed.
(*@ C53_fit_symmetric_refuted | A fit with symmetric=True reports gamma = 0 and the matching sigma2 while the variances it returns are those of the gamma found by the minimiser: they do not start at the reported sigma2 *)
Lemma garch_fit_symmetric : forall x lamb omega alpha beta gamma rf e0 e1 e2 e3 e4 fn fit, e4 <> 0 -> to_unit e2 * e4 ^ 2 + to_unit e3 < 1 ->
  hngarch_fit (fun _ _ => Ok ([e0; e1; e2; e3; e4], fn)) x lamb omega alpha beta gamma rf true = Ok fit ->
  g_gamma fit = 0 /\ exists h hs, g_h fit = h :: hs /\ stationary (to_unit e1) (to_unit e2) (to_unit e3) e4 h /\ g_sigma2 fit < h.
Proof.
  rewrite <- ?logistic_unit, <- ?logit_line.
  intros x lamb omega alpha beta gamma rf e0 e1 e2 e3 e4 fn fit He HP H. apply fit_inv in H. cbv zeta in H.
  destruct H as (est & fn' & final & f0 & f1 & f2 & f3 & f4 & rest & _ & EM & Ee & EF & _ & Eh & _ & _ & E1 & E2 & E3 & E4 & _ & Ep & Es & _).
  apply Ok_inj in EM. injection EM as EM _. rewrite Ee in EM. injection EM as <- <- <- <- <- <-. subst est.
  assert (Hx : x <> []). { intro Hx. subst x. discriminate. }
  assert (E40 : g_gamma fit = 0) by (rewrite E4; toR; lra).
  split; [exact E40|]. destruct (llh_core e0 e1 e2 e3 e4 rf true x HP Hx) as (zs & Hz & _ & HE). rewrite HE in EF. apply Ok_inj in EF. subst final. cbn [f_h] in Eh.
  destruct zs as [|z zs]; [easy|]. cbn [hn_variances] in Eh. eexists _, _. split; [exact Eh|]. pose proof (logistic_range e1). pose proof (logistic_range e2). pose proof (logistic_range e3).
  split; [apply h0_stat; lra|]. rewrite Es, Ep, E1, E2, E3, E40. toR. 
  assert (0 < logistic e2 * e4 ^ 2) by (apply Rmult_lt_0_compat; [lra|generalize (Rsqr_pos_lt e4 He); unfold Rsqr; cbn; lra]).
  unfold Rdiv. apply Rmult_lt_compat_l; [lra|]. apply Rinv_lt_contravar; [apply Rmult_lt_0_compat; lra|lra].
Qed.
(*@ C53_minimum_refuted | The reported "minimum" is not the log likelihood at the estimate: it is larger by n sqrt(2 pi), for every minimiser that reports the value of the objective at the point it returns *)
Lemma garch_minimum : forall minimize x lamb omega alpha beta gamma rf fit,
  (forall f s est fn, minimize f s = Ok (est, fn) -> f est = Ok fn) ->
  hngarch_fit minimize x lamb omega alpha beta gamma rf false = Ok fit -> g_persistence fit < 1 ->
  g_minimum fit = log_likelihood (g_h fit) (g_z fit) + INR (length x) * sqrt (2 * PI) /\ log_likelihood (g_h fit) (g_z fit) < g_minimum fit.
Proof.
  intros minimize x lamb omega alpha beta gamma rf fit Hm H HP. apply fit_inv in H. cbv zeta in H.
  destruct H as (est & fn & final & e0 & e1 & e2 & e3 & e4 & rest & _ & EM & Ee & EF & Emin & Eh & Ez & E0 & E1 & E2 & E3 & E4 & Er & Ep & Es & _).
  apply Hm in EM. rewrite EF in EM. cbn [rmap] in EM. apply Ok_inj in EM.
  assert (EP : g_persistence fit = logistic e3 + logistic e2 * e4 ^ 2) by (rewrite Ep, E2, E3, E4; cbn; ring). rewrite EP in HP.
  assert (Hx : x <> []). { intro Hx. subst x est. discriminate. }
  subst est. rewrite llh_rest in EF. destruct (llh_core e0 e1 e2 e3 e4 rf false x ltac:(lra) Hx) as (zs & Hz & HR & HE). rewrite HE in EF. apply Ok_inj in EF. subst final. cbn [f_h f_z f_llh] in *.
  rewrite Eh, Ez. assert (E : g_minimum fit = log_likelihood (hn_variances (logistic e1) (logistic e2) (logistic e3) e4 ((logistic e1 + logistic e2) / (1 - logistic e3 - logistic e2 * e4 ^ 2)) zs) zs + INR (length x) * sqrt (2 * PI)).
  { rewrite Emin, <- EM, ofnat_INR. toR. rewrite Ropp_involutive. reflexivity. }
  split; [exact E|]. rewrite E. assert (0 < INR (length x)) by (apply lt_0_INR; destruct x; [easy|cbn; lia]). generalize sqrt2pi_gt1. nra.
Qed.
(*@ C54_start | The first value a fit reports is minus the log likelihood at the given start parameters: the transformation to the unit interval is undone exactly *)
Lemma garch_start : forall minimize x lamb omega alpha beta gamma rf symmetric fit h,
  hngarch_fit minimize x lamb (Some omega) (Some alpha) beta gamma rf symmetric = Ok fit ->
  0 < omega < 1 -> 0 < alpha < 1 -> 0 < beta < 1 -> alpha * gamma ^ 2 + beta < 1 -> 0 <= h -> stationary omega alpha beta gamma h ->
  exists zs, hn_returns lamb omega alpha beta gamma rf h zs = x /\ g_value fit = - log_likelihood (hn_variances omega alpha beta gamma h zs) zs.
Proof.
  intros minimize x lamb omega alpha beta gamma rf symmetric fit h H Ho Ha Hb HP H0 Hs. apply fit_inv in H. cbv zeta in H. destruct H as (est & fn & final & e0 & e1 & e2 & e3 & e4 & rest & EV & _ & Ee & EF & _).
  apply stat_h0 in Hs; [|exact HP|exact H0].
  assert (Hx : x <> []). { intro Hx. subst x est. discriminate. }
  destruct (llh_core lamb (logit omega) (logit alpha) (logit beta) gamma rf symmetric x ltac:(rewrite !logistic_logit by assumption; exact HP) Hx) as (zs & _ & HR & HE).
  rewrite !logistic_logit in HR, HE by assumption. rewrite <- Hs in HR, HE. exists zs. split; [exact HR|]. rewrite HE in EV. cbn [rmap f_llh] in EV. apply Ok_inj in EV. symmetry. exact EV.
Qed.
(*@ C54_defaults | Without omega and alpha the fit starts from the variance of the series and a tenth of it *)
Lemma garch_defaults : forall minimize x lamb beta gamma rf symmetric, x <> [] ->
  hngarch_fit minimize x lamb None None beta gamma rf symmetric = hngarch_fit minimize x lamb (Some (variance x)) (Some (variance x / 10)) beta gamma rf symmetric.
Proof.
  intros minimize x lamb beta gamma rf symmetric Hx. unfold hngarch_fit. assert (E : varl x = variance x).
  { unfold varl, variance. rewrite !meanl_average. reflexivity. }
  assert (E2 : (lit 0.1 * varl x)%num = variance x / 10) by (rewrite E; toR; lra). rewrite E2, E. reflexivity.
Qed.

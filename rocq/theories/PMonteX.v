(** Monte Carlo options with infinities and nan (C46, C48, C49). *)
From Coq Require Import Reals ZArith QArith Qreals List Bool Lra Lia.
From Verif Require Import Num Py MBase MAmerican MMonte SMonte PDegen PMonte.
Import ListNotations.
Open Scope R_scope.

(** ** The retry loop *)
Lemma sobol_loop_spec {T} `{Num T} draw : forall fuel k m k', sobol_loop fuel draw k = Ok (m, k') ->
  exists j, (k <= j <= k + fuel)%nat /\ m = draw j /\ k' = S j /\ sobol_bad (draw j) = Ok false /\
    forall i, (k <= i < j)%nat -> sobol_bad (draw i) = Ok true.
Proof.
  induction fuel as [|f IH]; intros k m k' HL; cbn in HL; destruct (sobol_bad (draw k)) as [[|]|] eqn:HB; try discriminate; cbn in HL.
  - injection HL as <- <-. exists k. repeat split; auto; intros; lia.
  - apply IH in HL as (j & Hj & -> & -> & H1 & H2). exists j. repeat split; auto; try lia. intros i Hi.
    destruct (Nat.eq_dec i k) as [->|]; [exact HB|apply H2; lia].
  - injection HL as <- <-. exists k. repeat split; auto; intros; lia.
Qed.
(*@ C49_sample | The sampler returns the first draw (from the current state on) that its retry guard accepts, or the supplied eps; in the unscrambled case a draw of n paths consists of the quantiles of Sobol points 1..n. *)
Lemma sobol_sample_thm : forall (T : Type) (N : Num T) (points : nat -> list T) (ppf : T -> T) (draw : nat -> matrix T) (eps : option (matrix T))
    (fuel n k k' : nat) (m : matrix T),
  (sobol_sample fuel draw eps k = Ok (m, k') ->
   exists j, (k <= j)%nat /\ k' = S j /\ m = match eps with None => draw j | Some e => e end /\ sobol_bad (draw j) = Ok false /\
     forall i, (k <= i < j)%nat -> sobol_bad (draw i) = Ok true) /\
  ((0 < n)%nat -> get_sobol points ppf false n = map (fun i => map ppf (points i)) (seq 1 n) /\
    get_sobol points ppf true n = map (fun i => map ppf (points i)) (seq 0 n)).
Proof.
  intros T N points ppf draw eps fuel n k k' m. split.
  - intro HS. unfold sobol_sample in HS. destruct (sobol_loop fuel draw k) as [[m' k1]|] eqn:HL; [|discriminate]. cbn in HS. injection HS as <- <-.
    apply sobol_loop_spec in HL as (j & Hj & -> & -> & H1 & H2). exists j. repeat split; auto; lia.
  - intro Hn. unfold get_sobol. split; [|now rewrite map_map]. destruct n as [|n]; [lia|].
    change (tl (map points (seq 0 (S n)))) with (map points (seq 1 n)). rewrite (seq_S n 1), !map_app, map_map. reflexivity.
Qed.

Definition low (x : X) : Prop := x = MInf \/ exists a, x = Fin a.
Lemma fold_max_low l : forall a, low a -> Forall low l ->
  low (fold_left Xmax l a) /\ (fold_left Xmax l a = MInf <-> a = MInf /\ Forall (fun x => x = MInf) l).
Proof.
  induction l as [|x l IH]; intros a Ha HF; cbn [fold_left].
  - split; [exact Ha|]. split; [intros ->; auto|tauto].
  - inversion HF as [|? ? Hx Hl]; subst. assert (HM : low (Xmax a x)).
    { destruct Ha as [->|[u ->]], Hx as [->|[w ->]]; cbn; unfold low; eauto. destruct (Rltb u w); eauto. }
    destruct (IH (Xmax a x) HM Hl) as [I1 I2]. split; [exact I1|]. rewrite I2.
    assert (HX : Xmax a x = MInf <-> a = MInf /\ x = MInf).
    { destruct Ha as [->|[u ->]], Hx as [->|[w ->]]; cbn; try (split; [intros; tauto || (split; congruence) || discriminate|intros [? ?]; congruence]).
      split; [destruct (Rltb u w); discriminate|intros [? ?]; discriminate]. }
    rewrite HX. split; [intros [[? ?] ?]; auto|intros [? HF2]; inversion HF2; subst; auto].
Qed.
Lemma bad_low m : concat m <> [] -> Forall low (concat m) ->
  exists bad, sobol_bad m = Ok bad /\ (bad = true <-> Forall (fun x => x = MInf) (concat m)).
Proof.
  intros Hn HF. unfold sobol_bad, npmax. destruct (concat m) as [|x l]; [contradiction|]. cbn [bind]. inversion HF; subst.
  destruct (fold_max_low l x) as [L1 L2]; [assumption|assumption|]. eexists. split; [reflexivity|].
  cbn [maxn XNum]. destruct L1 as [L1|[a L1]]; rewrite L1 in *.
  - split; [|intros _; unfold is_pinf; cbn; reflexivity]. intros _. destruct L2 as [L2 _]. destruct L2; [reflexivity|]. now constructor.
  - split.
    + unfold is_pinf. cbn. intro HB. apply andb_prop in HB as [_ HB]. unfold Reqb in HB. destruct Req_EM_T as [E|]; [|discriminate]. unfold Q2R in E. cbn in E. lra.
    + intro HA. inversion HA; subst. destruct L2 as [_ L2]. discriminate L2; auto.
Qed.
(*@ C49_infinite_refuted | Finding: the guard against infinities looks at the largest entry only. A draw containing the point 0 (whose normal quantile is -inf) next to any other point is returned as it is, with -inf among the innovations; the guard triggers only if every point is 0. *)
Lemma sobol_inf_thm : forall (U : list (list R)) (ppf : X -> X) (draw : nat -> matrix X) (fuel k : nat),
  concat U <> [] -> Forall (fun u => 0 <= u < 1) (concat U) ->
  ppf (Fin 0) = MInf -> (forall u, 0 < u < 1 -> exists q, ppf (Fin u) = Fin q) -> draw k = map (map (fun u => ppf (Fin u))) U ->
  ((exists bad, sobol_bad (draw k) = Ok bad /\ (bad = true <-> Forall (fun u => u = 0) (concat U))) /\
   forall u, In 0 (concat U) -> In u (concat U) -> u <> 0 ->
     sobol_sample fuel draw None k = Ok (draw k, S k) /\ In MInf (concat (draw k))).
Proof.
  intros U ppf draw fuel k Hn HU H0 H1 Hd.
  assert (HC : concat (draw k) = map (fun u => ppf (Fin u)) (concat U)) by (rewrite Hd; symmetry; apply concat_map).
  assert (HL : Forall low (concat (draw k))).
  { rewrite HC. clear - HU H0 H1. induction HU as [|u l Hu HF IH]; constructor; auto. destruct (Req_dec u 0) as [->|]; [now left|right; apply H1; lra]. }
  assert (HM : Forall (fun x => x = MInf) (concat (draw k)) <-> Forall (fun u => u = 0) (concat U)).
  { rewrite HC. clear - HU H0 H1. induction HU as [|u l Hu HF IH]; [split; constructor|]. split; intro HA; inversion HA; subst; constructor; try tauto.
    destruct (Req_dec u 0); [assumption|]. destruct (H1 u ltac:(lra)) as [q Hq]. congruence. }
  destruct (bad_low (draw k)) as (bad & HB1 & HB2); [rewrite HC; destruct (concat U); [contradiction|discriminate]|exact HL|].
  split; [exists bad; split; [exact HB1|now rewrite HB2]|].
  intros u Hz Hu Hne. split.
  - assert (bad = false). { destruct bad; [|reflexivity]. exfalso. apply Hne. assert (HA : Forall (fun u => u = 0) (concat U)) by tauto. rewrite Forall_forall in HA. now apply HA. }
    subst bad. unfold sobol_sample. destruct fuel; cbn [sobol_loop]; rewrite HB1; reflexivity.
  - rewrite HC. rewrite <- H0. now apply (in_map (fun u => ppf (Fin u))).
Qed.

(** ** Paths through -inf *)
Definition enc (o : option R) : X := match o with Some x => Fin x | None => MInf end.
Fixpoint all_some (l : list (option R)) : option (list R) :=
  match l with [] => Some [] | None :: _ => None | Some x :: l' => match all_some l' with None => None | Some m => Some (x :: m) end end.
Definition step (c d : R) (o : option R) : X := match o with Some e => Fin (c + d * e) | None => MInf end.
Lemma sum_steps c d l : forall a, fold_left Xadd (map (step c d) l) (Fin a) =
  match all_some l with Some es => Fin (a + total (map (fun e => c + d * e) es)) | None => MInf end.
Proof.
  assert (HM : forall l, fold_left Xadd (map (step c d) l) MInf = MInf) by (induction l0 as [|[x|] l0 IH]; [reflexivity|exact IH|exact IH]).
  induction l as [|[x|] l IH]; intro a.
  - cbn. unfold total. cbn. f_equal. ring.
  - cbn [map fold_left step Xadd all_some]. rewrite IH. destruct (all_some l); [|reflexivity]. unfold total. cbn. f_equal. ring.
  - cbn [map fold_left step Xadd all_some]. apply HM.
Qed.
Lemma xlit z : @lit X XNum (z # 1)%Q = Fin (IZR z).
Proof. exact (f_equal Fin (q2 z)). Qed.
Lemma xsuml l : suml (map Fin l) = Fin (total l).
Proof.
  unfold suml. cbn [add lit XNum]. assert (G : forall l a, fold_left Xadd (map Fin l) (Fin a) = Fin (a + total l)).
  { induction l0 as [|x l0 IH]; intro a; cbn [map fold_left]; [unfold total; cbn; f_equal; ring|]. cbn [Xadd]. rewrite IH. unfold total. cbn. f_equal. ring. }
  rewrite G. f_equal. unfold Q2R. cbn. lra.
Qed.
Lemma xofnat n : @ofnat X XNum n = Fin (INR n).
Proof. unfold ofnat. cbn. now rewrite <- INR_IZR_INZ. Qed.
Lemma xmeanl l : l <> [] -> meanl (map Fin l) = Fin (average l).
Proof.
  intro Hn. unfold meanl. rewrite xsuml, map_length, xofnat. cbn [div XNum]. rewrite Xdiv_fin; [reflexivity|]. pose proof (len_pos l Hn). lra.
Qed.
Lemma fin_not_pinf q : is_pinf (Fin q) = false.
Proof. unfold is_pinf. rewrite (xlit 1), (xlit 0). cbn [ltb eqb add XNum Xltb Xeqb Xadd]. apply andb_false_intro2. unfold Reqb. destruct Req_EM_T; [lra|reflexivity]. Qed.
Section Path.
Variables S0 K t r b s : R.
Variable len : nat.
Hypothesis Ht : 0 < t.
Hypothesis Hs : 0 < s.
Hypothesis Hl : (0 < len)%nat.
Let dt := t / INR len.
Lemma dt_pos : 0 < dt. Proof. apply Rdiv_lt_0_compat; [exact Ht|now apply lt_0_INR]. Qed.
Lemma xdt : (Fin t / ofnat len)%num = Fin dt.
Proof. rewrite xofnat. cbn [div XNum]. apply Xdiv_fin. pose proof (lt_0_INR len Hl). lra. Qed.
Lemma xstep o : ((Fin b - Fin s ^ 2 / lit 2) * Fin dt + Fin s * sqrn (Fin dt) * enc o)%num = step ((b - s ^ 2 / 2) * dt) (s * sqrt dt) o.
Proof.
  pose proof dt_pos as Hdt. pose proof (sqrt_lt_R0 dt Hdt) as Hq. assert (0 < s * sqrt dt) by (apply Rmult_lt_0_compat; assumption).
  rewrite (xlit 2). change (Fin s ^ 2)%num with (Fin (s * (s * 1))); cbn [sqrn mul add sub div XNum Xmul Xsqrt]. destruct (Rlt_dec dt 0); [lra|]. rewrite Xdiv_fin by lra. unfold Xsub. cbn [Xopp Xadd Xmul].
  destruct o as [e|]; cbn [enc step Xmul Xadd].
  - apply f_equal. field.
  - rewrite Xsgn_neg by lra. reflexivity.
Qed.
(** the price after a path, 0 if some innovation is -inf *)
Definition end_price (row : list (option R)) : R := match all_some row with Some es => gbm S0 b s dt es | None => 0 end.
Lemma xterminal row : (Fin S0 * expn (suml (map (fun e => (Fin b - Fin s ^ 2 / lit 2) * Fin dt + Fin s * sqrn (Fin dt) * e) (map enc row))))%num = Fin (end_price row).
Proof.
  rewrite map_map, (map_ext _ (step ((b - s ^ 2 / 2) * dt) (s * sqrt dt))) by apply xstep.
  unfold suml. rewrite (xlit 0). cbn [add XNum]. rewrite sum_steps. unfold end_price. destruct (all_some row) as [es|].
  - cbn [expn mul XNum Xexp Xmul]. f_equal. unfold gbm. rewrite total_affine. do 2 f_equal. ring.
  - cbn. f_equal. ring.
Qed.
Lemma xpayoff (call : bool) u : (expn (- Fin r * Fin t) * maxn (if call then Fin u - Fin K else Fin K - Fin u) (lit 0))%num = Fin (discounted call K t r u).
Proof.
  rewrite (xlit 0). unfold discounted. assert (G : forall z, Xmax (Fin z) (Fin 0) = Fin (Rmax 0 z)).
  { intro z. cbn. unfold Rltb, Rmax. destruct (Rlt_dec z 0), (Rle_dec 0 z); try (f_equal; lra). }
  destruct call; cbn [opp mul sub expn maxn XNum]; unfold Xsub; cbn [Xopp Xadd Xmul Xexp]; rewrite G; cbn [Xmul]; f_equal; f_equal; f_equal; ring.
Qed.
End Path.

(*@ C49_silent | The consequence: a path with an innovation of -inf counts as one ending at price 0 (call payoff 0, put payoff K), without any warning; paths with finite innovations are priced as usual. *)
Lemma mc_minus_inf : forall (St : Type) (inno : nat -> nat -> St -> res (matrix X * St)) (call trace : bool) (len paths : nat) (S K t r b s : R)
    (E : list (list (option R))) (o : mc X St) (st st' : St), 0 < t -> 0 < s -> E <> [] ->
  MonteCarloOption 1 len paths (Fin S) (Fin K) (Fin t) (Fin r) (Fin b) (Some (Fin s)) inno wiener_path vanilla_payoff trace false false = Ok o ->
  inno paths len st = Ok (map (map (fun x => match x with Some e => Fin e | None => MInf end)) E, st') ->
  exists tr, mc_price call o st = Ok (MArray [Fin (average (map (fun row => discounted call K t r
     (match all_some row with Some es => gbm S b s (t / INR len) es | None => 0 end)) E))], tr, st').
Proof.
  intros St inno call trace len paths S K t r b s E o st st' Ht Hs HE Ho HD.
  unfold MonteCarloOption in Ho. destruct (Nat.eqb len 0) eqn:HL; [discriminate|]. apply Nat.eqb_neq in HL. assert (Hl : (0 < len)%nat) by lia. injection Ho as <-.
  fold enc in HD. set (o := mkMc _ _ _ _ _ _ _ _ _ _ _ _ _ _ _ _). assert (HDT : m_dt o = Fin (t / INR len)) by exact (xdt t len Hl).
  assert (HP : mc_loop_payoff o call (map (map enc) E) = Ok (map Fin (map (fun row => discounted call K t r (end_price S t b s len row)) E))).
  { unfold mc_loop_payoff, mc_loop_path. rewrite HDT. cbn [m_pay m_path m_sigma m_b m_S m_K m_t m_r o].
    unfold vanilla_payoff, terminal_prices, wiener_path, need, of_opt, mc_innovations. cbn [bind p_path p_S p_K p_t p_r m_anti m_std o]. f_equal.
    rewrite !map_map. apply map_ext. intro row. rewrite xterminal by assumption. apply xpayoff. }
  unfold mc_price, sim_mc. change (m_loops o) with 1%nat. cbn [sim_mc_from]. change (m_inno o st) with (inno paths len st). rewrite HD. cbn [bind fst snd]. rewrite HP. cbn [bind].
  rewrite xmeanl by (destruct E; [contradiction|discriminate]).
  rewrite fin_not_pinf. cbn [bind fst snd app m_trace o print_trace]. destruct trace; eexists; reflexivity.
Qed.

(** ** Infinite means *)
Definition high (x : X) : Prop := x = PInf \/ exists a, x = Fin a.
Lemma sum_high l : forall a, high a -> Forall high l ->
  high (fold_left Xadd l a) /\ (a = PInf \/ Exists (fun x => x = PInf) l -> fold_left Xadd l a = PInf).
Proof.
  induction l as [|x l IH]; intros a Ha HF; cbn [fold_left].
  - split; [exact Ha|]. intros [->|HE]; [reflexivity|inversion HE].
  - inversion HF as [|? ? Hx Hl]; subst. assert (HM : high (Xadd a x)).
    { destruct Ha as [->|[u ->]], Hx as [->|[w ->]]; cbn; unfold high; eauto. }
    destruct (IH (Xadd a x) HM Hl) as [I1 I2]. split; [exact I1|]. intros [->|HE].
    + apply I2. left. destruct Hx as [->|[w ->]]; reflexivity.
    + inversion HE; subst; apply I2; [left; destruct Ha as [->|[u ->]]; reflexivity|now right].
Qed.
Section High.
Variables S0 K t r b s : R.
Variable len : nat.
Hypothesis HS : 0 < S0.
Hypothesis Ht : 0 < t.
Hypothesis Hs : 0 < s.
Hypothesis Hl : (0 < len)%nat.
Let dt := t / INR len.
Let xs (e : X) : X := ((Fin b - Fin s ^ 2 / lit 2) * Fin dt + Fin s * sqrn (Fin dt) * e)%num.
Lemma xs_high e : high e -> high (xs e) /\ (e = PInf -> xs e = PInf).
Proof.
  intro He. pose proof (dt_pos t len Ht Hl) as Hdt. fold dt in Hdt. pose proof (sqrt_lt_R0 dt Hdt) as Hq. assert (0 < s * sqrt dt) by (apply Rmult_lt_0_compat; assumption).
  unfold xs. rewrite (xlit 2). change (Fin s ^ 2)%num with (Fin (s * (s * 1))). cbn [sqrn mul add sub div XNum Xmul Xsqrt]. destruct (Rlt_dec dt 0); [lra|]. rewrite Xdiv_fin by lra. unfold Xsub. cbn [Xopp Xadd Xmul].
  destruct He as [->|[a ->]]; cbn [Xmul].
  - rewrite Xsgn_pos by lra. cbn. split; [now left|reflexivity].
  - split; [right; eexists; reflexivity|discriminate].
Qed.
Lemma xrow_high row : Forall high row -> high (suml (map xs row)) /\ (In PInf row -> suml (map xs row) = PInf).
Proof.
  intro HF. assert (HX : Forall high (map xs row)) by (clear - HF Ht Hs Hl; induction HF; constructor; auto; now apply xs_high).
  unfold suml. rewrite (xlit 0). cbn [add XNum]. destruct (sum_high (map xs row) (Fin 0)) as [H1 H2]; [right; eauto|exact HX|]. split; [exact H1|].
  intro HI. apply H2. right. apply Exists_exists. exists (xs PInf). split; [now apply in_map|]. apply xs_high; [now left|reflexivity].
Qed.
Lemma xcall_high u : high u -> high (expn (- Fin r * Fin t) * maxn (Fin S0 * expn u - Fin K) (lit 0))%num /\
  (u = PInf -> (expn (- Fin r * Fin t) * maxn (Fin S0 * expn u - Fin K) (lit 0))%num = PInf).
Proof.
  intros [->|[a ->]].
  - assert ((expn (- Fin r * Fin t) * maxn (Fin S0 * expn PInf - Fin K) (lit 0))%num = PInf).
    { cbn [expn mul opp XNum Xexp Xmul Xopp]. rewrite Xsgn_pos by exact HS. cbn. apply Xsgn_pos, exp_pos. }
    split; [now left|auto].
  - split; [|discriminate]. right. cbn [expn mul opp XNum Xexp Xmul Xopp sub maxn]. unfold Xsub. cbn [Xopp Xadd].
    change (Fin (S0 * exp a + - K)) with (Fin (S0 * exp a) - Fin K)%num. exists (discounted true K t r (S0 * exp a)). exact (xpayoff K t r true (S0 * exp a)).
Qed.
End High.

(*@ C48_infinite_refuted | Finding: the result is not always an array of prices. If a draw contains -inf (which the sampler lets through) and antithetic is on, its mirror image makes the call's mean infinite and call() returns the triple (eps, path, payoff) of the first loop instead of mc_loops prices; with trace on it raises. *)
Lemma mc_infinite : forall (St : Type) (inno : nat -> nat -> St -> res (matrix X * St)) (trace : bool) (loops len paths : nat) (S K t r b s : R)
    (E : list (list (option R))) (o : mc X St) (st st' : St), 0 < S -> 0 < t -> 0 < s -> (0 < loops)%nat -> In None (concat E) ->
  MonteCarloOption loops len paths (Fin S) (Fin K) (Fin t) (Fin r) (Fin b) (Some (Fin s)) inno wiener_path vanilla_payoff trace true false = Ok o ->
  inno paths len st = Ok (map (map (fun x => match x with Some e => Fin e | None => MInf end)) E, st') ->
  if trace then exists e, mc_call o st = Err e else exists eps path payoff, mc_call o st = Ok (MDump 0 eps path payoff, [], st').
Proof.
  intros St inno trace loops len paths S K t r b s E o st st' HS Ht Hs HLo HN Ho HD.
  unfold MonteCarloOption in Ho. destruct (Nat.eqb len 0) eqn:HL; [discriminate|]. apply Nat.eqb_neq in HL. assert (Hl : (0 < len)%nat) by lia. injection Ho as <-.
  fold enc in HD. set (o := mkMc _ _ _ _ _ _ _ _ _ _ _ _ _ _ _ _). assert (HDT : m_dt o = Fin (t / INR len)) by exact (xdt t len Hl).
  assert (HP : exists pay, mc_loop_payoff o true (map (map enc) E) = Ok pay /\ Forall high pay /\ In PInf pay).
  { unfold mc_loop_payoff, mc_loop_path. rewrite HDT. cbn [m_pay m_path m_sigma m_b m_S m_K m_t m_r o].
    unfold vanilla_payoff, terminal_prices, wiener_path, need, of_opt, mc_innovations, mc_antithetic. cbn [bind p_path p_S p_K p_t p_r m_anti m_std o].
    eexists. split; [reflexivity|]. rewrite !map_map, !map_app, !map_map. split.
    - apply Forall_app. split.
      + apply Forall_forall. intros y Hy. apply in_map_iff in Hy as (row & <- & Hr). rewrite xterminal by assumption. right. eexists. exact (xpayoff K t r true _).
      + apply Forall_forall. intros y Hy. apply in_map_iff in Hy as (row & <- & Hr). apply xcall_high; [exact HS|]. rewrite !map_map.
        pose proof (proj1 (xrow_high t b s len Ht Hs Hl (map (fun x => Xopp (enc x)) row) ltac:(apply Forall_forall; intros z Hz; apply in_map_iff in Hz as ([q|] & <- & _); cbn; unfold high; eauto))) as HH.
        rewrite map_map in HH. exact HH.
    - apply in_or_app. right. apply in_concat in HN as (row & Hr & Hi). apply in_map_iff. exists row. split; [|exact Hr].
      apply xcall_high; [exact HS| |]; rewrite !map_map.
      + pose proof (proj1 (xrow_high t b s len Ht Hs Hl (map (fun x => Xopp (enc x)) row) ltac:(apply Forall_forall; intros z Hz; apply in_map_iff in Hz as ([q|] & <- & _); cbn; unfold high; eauto))) as HH.
        rewrite map_map in HH. exact HH.
      + pose proof (proj2 (xrow_high t b s len Ht Hs Hl (map (fun x => Xopp (enc x)) row) ltac:(apply Forall_forall; intros z Hz; apply in_map_iff in Hz as ([q|] & <- & _); cbn; unfold high; eauto))) as HH.
        rewrite map_map in HH. apply HH. apply in_map_iff. exists None. split; [reflexivity|exact Hi]. }
  destruct HP as (pay & HP & HF & HI). destruct loops as [|n]; [lia|].
  assert (HM : is_pinf (meanl pay) = true).
  { unfold meanl, suml. rewrite (xlit 0), xofnat. cbn [add div XNum]. destruct (sum_high pay (Fin 0)) as [_ H2]; [right; eauto|exact HF|].
    rewrite H2 by (right; apply Exists_exists; eauto). cbn. destruct Rlt_dec as [Hx|]; [pose proof (pos_INR (length pay)); lra|reflexivity]. }
  unfold mc_call, mc_price, sim_mc. change (m_loops o) with (Datatypes.S n). cbn [sim_mc_from]. change (m_inno o st) with (inno paths len st). rewrite HD. cbn [bind fst snd]. rewrite HP. cbn [bind]. rewrite HM.
  cbn [bind fst snd m_trace o print_trace]. destruct trace; cbn [bind]; [eexists; reflexivity|do 3 eexists; reflexivity].
Qed.

(** ** Standardising a constant sample *)
Lemma const_concat (E : list (list R)) c : (forall x, In x (concat E) -> x = c) -> concat E = repeat c (length (concat E)).
Proof. generalize (concat E). induction l as [|y l IH]; intro H; [reflexivity|]. cbn. rewrite (H y) by now left. f_equal. apply IH. intros; apply H; now right. Qed.
Lemma average_repeat c n : (0 < n)%nat -> average (repeat c n) = c.
Proof.
  intro Hn. unfold average. rewrite repeat_length. assert (HT : total (repeat c n) = INR n * c).
  { clear. induction n as [|n IH]; [cbn; ring|]. cbn [repeat]. unfold total in *. cbn [fold_right]. rewrite IH, S_INR. ring. }
  rewrite HT. field. apply not_0_INR. lia.
Qed.
Lemma std_const (E : list (list R)) c : concat E <> [] -> (forall x, In x (concat E) -> x = c) ->
  mc_standardize (map (map Fin) E) = map (map (fun _ => NaN)) E.
Proof.
  intros Hn HC. unfold mc_standardize, stdl. rewrite <- concat_map. assert (HA : average (concat E) = c).
  { rewrite (const_concat E c HC). apply average_repeat. destruct (concat E); [contradiction|cbn; lia]. }
  rewrite xmeanl, HA by exact Hn.
  assert (HD : map (fun x => (x - Fin c) ^ 2)%num (map Fin (concat E)) = map Fin (repeat 0 (length (concat E)))).
  { rewrite map_map. rewrite (const_concat E c HC) at 1. generalize (length (concat E)). intro n. clear. induction n as [|n IH]; [reflexivity|]. cbn [repeat map]. rewrite IH. f_equal. cbn. f_equal. ring. }
  rewrite HD, xmeanl, average_repeat by (destruct (concat E); [contradiction|cbn; (lia || discriminate)]).
  cbn [sqrn XNum Xsqrt]. destruct (Rlt_dec 0 0) as [Hx|_]; [lra|]. rewrite sqrt_0. rewrite map_map.
  apply map_ext_in. intros row Hr. rewrite map_map. apply map_ext_in. intros x Hx.
  rewrite (HC x) by (apply in_concat; eauto). cbn [sub div XNum]. unfold Xsub. cbn [Xopp Xadd]. rewrite Xdiv_zero. replace (c + - c) with 0 by ring. apply Xsgn_0.
Qed.
Lemma nan_fold l : fold_left Xadd l NaN = NaN. Proof. induction l; [reflexivity|assumption]. Qed.

(*@ C46_constant_refuted | Finding: standardising a sample whose entries are all equal (in particular one path of one step) divides by zero; every price returned is nan. *)
Lemma mc_constant : forall (St : Type) (inno : nat -> nat -> St -> res (matrix X * St)) (trace call : bool) (len paths : nat) (S K t r b s c : R)
    (E : list (list R)) (o : mc X St) (st st' : St), E <> [] -> Forall (fun row => row <> []) E -> (forall x, In x (concat E) -> x = c) ->
  MonteCarloOption 1 len paths (Fin S) (Fin K) (Fin t) (Fin r) (Fin b) (Some (Fin s)) inno wiener_path vanilla_payoff trace false true = Ok o ->
  inno paths len st = Ok (map (map Fin) E, st') -> exists tr, mc_price call o st = Ok (MArray [NaN], tr, st').
Proof.
  intros St inno trace call len paths S K t r b s c E o st st' HE HR HC Ho HD.
  unfold MonteCarloOption in Ho. destruct (Nat.eqb len 0) eqn:HL; [discriminate|]. injection Ho as <-. set (o := mkMc _ _ _ _ _ _ _ _ _ _ _ _ _ _ _ _).
  assert (HN : concat E <> []) by (destruct E as [|row E]; [contradiction|]; inversion HR; subst; destruct row; [contradiction|discriminate]).
  assert (HP : mc_loop_payoff o call (map (map Fin) E) = Ok (map (fun _ => NaN) E)).
  { unfold mc_loop_payoff, mc_loop_path, mc_innovations. cbn [m_anti m_std o]. rewrite (std_const E c HN HC). cbn [m_pay m_path m_sigma m_b m_S m_K m_t m_r o].
    unfold vanilla_payoff, terminal_prices, wiener_path, need, of_opt. cbn [bind p_path p_S p_K p_t p_r]. f_equal.
    rewrite !map_map. apply map_ext_in. intros row Hr. rewrite Forall_forall in HR. specialize (HR row Hr). rewrite !map_map. destruct row as [|e row]; [contradiction|].
    assert (HSum : suml (map (fun _ : R => (Fin b - Fin s ^ 2 / lit 2) * m_dt o + Fin s * sqrn (m_dt o) * NaN)%num (e :: row)) = NaN).
    { unfold suml. cbn [map fold_left]. rewrite (xlit 0).
      assert (HX : forall u v : X, (u + v * NaN)%num = NaN) by (intros u v0; cbn; destruct u, v0; reflexivity). rewrite !HX. cbn [add XNum Xadd]. apply nan_fold. }
    rewrite HSum. cbn [expn mul XNum Xexp Xmul]. destruct call; cbn; reflexivity. }
  unfold mc_price, sim_mc. change (m_loops o) with 1%nat. cbn [sim_mc_from]. change (m_inno o st) with (inno paths len st). rewrite HD. cbn [bind fst snd]. rewrite HP. cbn [bind].
  assert (HM : meanl (map (fun _ : list R => NaN) E) = NaN).
  { unfold meanl, suml. destruct E; [contradiction|]. cbn [map fold_left]. rewrite (xlit 0). cbn [add XNum Xadd]. rewrite nan_fold. reflexivity. }
  rewrite HM. change (is_pinf NaN) with false. cbn [bind fst snd app m_trace o print_trace]. destruct trace; eexists; reflexivity.
Qed.

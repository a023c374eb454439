(** Roll-Geske-Whaley prices under a change of the unit of money (C42). *)
From Coq Require Import Reals ZArith QArith Qreals List Bool Lra Lia.
From Verif Require Import Num Py MBase MVanilla MAmerican PCnd PCnd2 PBlack PGbs PVanilla SAmerican PBaw PBaw5.
Open Scope R_scope.

Lemma le_scale c x y : 0 < c -> Rleb (c * x) (c * y) = Rleb x y.
Proof.
  intro Hc. destruct (Rle_dec x y) as [H|H]; [rewrite !(proj2 (Rleb_true _ _)); auto; apply Rmult_le_compat_l; lra|]. rewrite !(proj2 (Rleb_false _ _)); auto; [lra|]. apply Rmult_lt_compat_l; lra.
Qed.
Lemma never_scale S K t td r D sg c : 0 < c -> rgw_never (mkRgw (c * S) (c * K) t td r (c * D) sg) = rgw_never (mkRgw S K t td r D sg).
Proof.
  intro Hc. unfold rgw_never. cbn [w_D w_K w_r w_t w_td]. cbn [leb mul RNum]. rewrite Rmult_assoc. now apply le_scale.
Qed.

(*@ C42_unit | Roll-Geske-Whaley under a change of the unit of money, spot, strike and dividend multiplied by c > 0: is_call_optimal() stays the same, and when it is False the price is multiplied by c. Finding: when it is True and c S exceeds 1e8, call() raises ValueError: every such option has a unit in which it has no price. *)
Lemma rgw_unit : forall (S K t td r D s c : R), 0 < K -> 0 < c ->
  let o := mkRgw S K t td r D (Some s) in let o' := mkRgw (c * S) (c * K) t td r (c * D) (Some s) in
  rgw_is_call_optimal o' = rgw_is_call_optimal o /\
  (rgw_is_call_optimal o = false -> exists v, forall f1 f2, rgw_call f1 f2 o = Ok v /\ rgw_call f1 f2 o' = Ok (c * v)) /\
  (rgw_is_call_optimal o = true -> 10 ^ 8 < c * S -> forall f1 f2, rgw_call f1 f2 o' = Err ValueError).
Proof.
  intros S K t td r D s c HK Hc o o'. assert (EN : rgw_never o' = rgw_never o) by (apply never_scale; exact Hc). unfold rgw_is_call_optimal. rewrite EN. split; [reflexivity|]. split.
  - intro H. destruct (rgw_never o) eqn:E; [|discriminate].
    eexists. intros f1 f2. unfold rgw_call. rewrite EN, E. cbn [w_S w_K w_t w_td w_r w_D w_sigma o o'].
    assert (ES : sub (c * S) (mul (c * D) (expn (mul (opp r) td))) = c * (sub S (mul D (expn (mul (opp r) td))) : R)) by (cbn [sub mul expn RNum]; ring).
    rewrite ES, gbs_c_scale by assumption. split; [unfold gbs_c, gbs_call, gbs_call_F, GBSOption, with_d; cbn [g_sigma g_d1 g_d2]; reflexivity|reflexivity].
  - intros H HS f1 f2. destruct (rgw_never o) eqn:E; [discriminate|]. unfold rgw_call. rewrite EN. cbn [w_S w_K w_t w_td w_r w_D w_sigma o o'].
    assert (EB : (rgw_big : R) = 10 ^ 8) by (unfold rgw_big; cbn [lit RNum]; unfold Q2R; cbn; lra).
    assert (ER : rgw_search f1 f2 o' = Err ValueError).
    { unfold rgw_search, rgw_ci. cbn [w_S w_K w_t w_td w_r w_D w_sigma o']. unfold gbs_c at 1, gbs_call, gbs_call_F, GBSOption, with_d. cbn [g_sigma g_d1 g_d2 bind].
      unfold rgw_double.
      destruct f1; cbn [while_]; cbn [ltb RNum]; rewrite ?EB, (proj2 (Rltb_false (c * S) (10 ^ 8))) by lra; rewrite andb_false_r; cbn [bind]; rewrite ?EB, (proj2 (Rltb_true (10 ^ 8) (c * S))) by lra; reflexivity. }
    fold o'. rewrite ER. reflexivity.
Qed.

From Coq Require Import String.
From Coquelicot Require Import Coquelicot.
From Verif Require Import Base M_Laws S_Laws L_Laws L_LawsC M_Registry M_Reinf.

Lemma code_fyd_ok a g v : code_fyd a g = Ok v -> 0 <= a /\ 1 <= g /\ v = a / g.
Proof. unfold code_fyd. destruct (Rltb_spec a 0), (Rltb_spec g 1); try discriminate. intros [= <-]. repeat split; lra. Qed.
Lemma rf_law_plastic c fyk Es ftk epsuk gs ge r l :
  reinf_init c fyk Es ftk epsuk gs ge "elasticplastic" = Ok (r, l) ->
  exists ft fy u y p, r = reinf_attrs c fyk Es ftk epsuk gs ge /\ rf_ftd r = Ok ft /\ rf_fyd r = Ok fy /\ rf_epsud r = Ok u /\ rf_epsyd r = Ok y /\
    u <> y /\ l = RPlastic p /\ ep_init (Rabs Es) fy ((ft - fy) / (u - y)) (Some u) = Ok p.
Proof.
  unfold reinf_init. set (r0 := reinf_attrs _ _ _ _ _ _ _). unfold create_law. cbn [lower dict_get constitutive_laws].
  cbn -[rf_methods rf_build]. unfold rf_methods at 1. cbn -[rf_ftd rf_fyd rf_epsud rf_epsyd rf_build].
  destruct (rf_ftd r0) as [ft|] eqn:E1; cbn [bind]; [|discriminate].
  destruct (rf_fyd r0) as [fy|] eqn:E2; cbn [bind]; [|discriminate].
  destruct (rf_epsud r0) as [u|] eqn:E3; cbn [bind]; [|discriminate].
  destruct (rf_epsyd r0) as [y|] eqn:E4; cbn [bind]; [|discriminate].
  destruct (Reqb_spec (u - y) 0) as [|N]; cbn [bind]; [discriminate|]. unfold rf_build.
  destruct (ep_init _ _ _ _) as [p|] eqn:E5; cbn [bind]; [|discriminate]. intros [= <- <-].
  exists ft, fy, u, y, p. repeat split; try assumption. lra.
Qed.
Lemma rf_law_perfect c fyk Es ftk epsuk gs ge r l :
  reinf_init c fyk Es ftk epsuk gs ge "elasticperfectlyplastic" = Ok (r, l) ->
  exists fy u p, r = reinf_attrs c fyk Es ftk epsuk gs ge /\ rf_fyd r = Ok fy /\ rf_epsud r = Ok u /\
    l = RPlastic p /\ ep_init (Rabs Es) fy 0 (Some u) = Ok p.
Proof.
  unfold reinf_init. set (r0 := reinf_attrs _ _ _ _ _ _ _). unfold create_law. cbn [lower dict_get constitutive_laws].
  cbn -[rf_methods rf_build]. unfold rf_methods at 1. cbn -[rf_ftd rf_fyd rf_epsud rf_epsyd rf_build].
  destruct (rf_fyd r0) as [fy|] eqn:E2; cbn [bind]; [|discriminate].
  destruct (rf_epsud r0) as [u|] eqn:E3; cbn [bind]; [|discriminate]. unfold rf_build.
  destruct (ep_init _ _ _ _) as [p|] eqn:E5; cbn [bind]; [|discriminate]. intros [= <- <-].
  exists fy, u, p. repeat split; assumption.
Qed.
Lemma rf_values c fyk Es ftk epsuk gs ge r : r = reinf_attrs c fyk Es ftk epsuk gs ge ->
  rf_fyk r = Rabs fyk /\ rf_Es r = Rabs Es /\ rf_ftk r = Rabs ftk /\ rf_epsuk r = Rabs epsuk /\ rf_cls r = c /\
  rf_gs r = gs /\ rf_ge r = ge.
Proof. intros ->. repeat split. Qed.
Lemma reinf_init_eq c fyk Es ftk epsuk gs ge : reinf_init c fyk Es ftk epsuk gs ge "elasticplastic" =
  let r := reinf_attrs c fyk Es ftk epsuk gs ge in
  do l <- (do k <- (do ft <- rf_ftd r; do fy <- rf_fyd r; do u <- rf_epsud r; do y <- rf_epsyd r;
          if Reqb (u - y) 0 then Err ZeroDivisionError
          else Ok (KPlastic (rf_Es r) fy ((ft - fy) / (u - y)) u)); rf_build CElasticPlastic k); Ok (r, l).
Proof. reflexivity. Qed.
Ltac eval_reinf :=
  rewrite reinf_init_eq; cbv zeta;
  unfold rf_epsyd, rf_ftd, rf_fyd, rf_epsud, code_fyd, code_epsud, code_eps_ud_2023, gamma_s, gamma_eps, py_or;
  cbn [reinf_attrs rf_fyk rf_ftk rf_Es rf_epsuk rf_cls rf_gs rf_ge];
  rewrite !(Rabs_pos_eq) by lra;
  repeat (rsplit1; cbn [bind]; try lra);
  unfold rf_build, ep_init; destruct (Rltb_spec 0 200000); try lra; cbn [bind].

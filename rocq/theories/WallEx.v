(** C75 on the two number systems, and runs that meet its hypotheses. *)
From Coq Require Import Reals Lra Floats FloatAxioms SpecFloat.
From Verif Require Import Base Num NumR NumE NumF Env Common DE CPSO Sample Hoare EvalRules Gen Steps
  Best Inst Disc Valid Accept Chain Mcmc PropMc Hmc PropHmc PropCb Demo ExPop HmcReal SampInst ExSamp HmcEq Wall.

#[export] Instance EWall : @WallLaws ENum.
Proof.
  constructor; unfold isinf, isnum, n0, nZ; cbn;
    intros; repeat match goal with x : er |- _ => destruct x end; cbn in *; try discriminate; try tauto; auto;
    unfold Rleb, Rltb in *;
    repeat match goal with
      | H : context [Rle_dec ?a ?a] |- _ => destruct (Rle_dec a a); [|exfalso; lra]
      | |- context [Rle_dec ?a ?a] => destruct (Rle_dec a a); [|exfalso; lra]
      end; try discriminate; try tauto.
Qed.

Lemma f_isinf F x : @isinf (FNum F) x -> Prim2SF x = S754_infinity false.
Proof.
  unfold isinf. cbn. rewrite f_leb_key. destruct (Prim2SF x) as [[|]|[|]| |[|] m e]; cbn; try discriminate; auto.
Qed.
#[export] Instance FWall F : @WallLaws (FNum F).
Proof.
  constructor.
  - reflexivity.
  - intros x y z Hx Hn Hy. apply f_isinf in Hy.
    assert (Hs : Prim2SF (PrimFloat.sub x y) = S754_infinity true).
    { rewrite sub_spec, Hy. unfold isnum in Hx. cbn in Hx. rewrite f_leb_key in Hx.
      assert (Hn' : PrimFloat.leb infinity x <> true) by exact Hn. rewrite f_leb_key in Hn'.
      destruct (Prim2SF x) as [[|]|[|]| |[|] m e]; cbn in *; try discriminate; try reflexivity. congruence. }
    change ((PrimFloat.sub x y <? f_lit 0 0)%float = true /\ (z <? PrimFloat.sub x y)%float = false).
    rewrite !f_ltb_key, Hs. split; [reflexivity|].
    destruct (Prim2SF z) as [[|]|[|]| |[|] m e]; reflexivity.
  - intros x y Hx. apply f_isinf in Hx.
    change ((PrimFloat.sub x y <? f_lit 0 0)%float = false). rewrite f_ltb_key, sub_spec, Hx.
    destruct (Prim2SF y) as [[|]|[|]| |[|] m e]; reflexivity.
  - intros x y Hx Hy. apply f_isinf in Hx. apply f_isinf in Hy. apply (proj2 (f_isnum_nan F _)). cbn.
    rewrite sub_spec, Hx, Hy. reflexivity.
  - intros x y H; apply (proj1 (f_isnum_nan F _)) in H; apply (proj2 (f_isnum_nan F _)); cbn; rewrite sub_spec, H. reflexivity.
  - intros x y H; apply (proj1 (f_isnum_nan F _)) in H; apply (proj2 (f_isnum_nan F _)); cbn; rewrite sub_spec, H.
    destruct (Prim2SF x); reflexivity.
  - intros x y H; apply (proj1 (f_isnum_nan F _)) in H; apply (proj2 (f_isnum_nan F _)); cbn; rewrite add_spec, H. reflexivity.
  - intros x y H; apply (proj1 (f_isnum_nan F _)) in H; apply (proj2 (f_isnum_nan F _)); cbn; rewrite add_spec, H.
    destruct (Prim2SF x); reflexivity.
  - intros x y H; apply (proj1 (f_isnum_nan F _)) in H; apply (proj2 (f_isnum_nan F _)); cbn; rewrite mul_spec, H. reflexivity.
  - intros x y H; apply (proj1 (f_isnum_nan F _)) in H; apply (proj2 (f_isnum_nan F _)); cbn; rewrite mul_spec, H.
    destruct (Prim2SF x); reflexivity.
  - intros x y H; apply (proj1 (f_isnum_nan F _)) in H; apply (proj2 (f_isnum_nan F _)); cbn; rewrite div_spec, H. reflexivity.
Qed.

(** ** A platform whose logarithm is negative below 1 *)
Definition neg_ln (x : float) : float :=
  if (x <? 1)%float then (if (d_ln x <? 0)%float then d_ln x else -0x1p-60%float) else d_ln x.
Definition WF : FloatFuns := {| f_exp := d_exp; f_ln := neg_ln; f_cos := d_cos; f_pow := d_pow |}.
Notation NWF := (FNum WF).
Lemma LogNeg_demo f : @LogNeg NWF (DemoEnv WF f).
Proof.
  intros u [r ->]. change ((neg_ln (fst (d_rand r)) <? f_lit 0 0)%float = true).
  assert (H : (fst (d_rand r) <? 1)%float = true).
  { unfold d_rand. destruct (sc_u r) as [|u t]; [reflexivity|]. cbn [fst].
    destruct (u <? 1)%float eqn:Hu; [|rewrite andb_false_r; reflexivity].
    rewrite andb_true_r. destruct (0 <=? u)%float; [exact Hu|reflexivity]. }
  unfold neg_ln. rewrite H. destruct (d_ln (fst (d_rand r)) <? 0)%float eqn:Hd; [exact Hd|reflexivity].
Qed.

(** +inf where the first coordinate exceeds 3/8 *)
Definition f_wall (x : list float) : float + nat :=
  if PrimFloat.ltb 0.375 (nth 0 x 0%float) then inl infinity else f_sphere x.
Definition bsqw : @nd (@num_arith NWF) := @D2 (FArith WF) 2 [[-1; 1]; [-1; 1]]%float.
Definition wargs (x0 : list float) (mx : Z) (step : float) : @SArgs NWF :=
  @mkSArgs NWF true bsqw (Some (@D1 (FArith WF) x0)) mx (@D0 (FArith WF) step) false None None true CbFun.

(** mcmc from inside the wall: stays for one accepted step, leaves, and is refused when it wants to return *)
Definition mcw : @MCArgs NWF := @mkMCArgs NWF (wargs [0.75; 0]%float 4 0.5%float) 1%float.
Definition ww := script [0.5; 0.5; 0.5]%float [0.25; 0; -1.5; 0; 1; 0]%float.
Theorem C75_mcmc_hypotheses :
  @LogNeg NWF (DemoEnv WF f_wall) /\ 0 < nd_len (s_bounds (mca mcw)) /\
  s_constraints (mca mcw) <> Some "Reject"%string /\
  exists res st' X F, @exec NWF (DemoEnv WF f_wall) _ (@mcmc_sample NWF (DemoEnv WF f_wall) mcw) ww None = (inl res, st') /\
    (forall x y, In (x, y) (evals (tr st')) -> @isnum (FArith WF) y) /\
    sr_all res = Some (X, F) /\
    veq F [infinity; infinity; 0.015625; 0.015625]%float = true /\
    veq (map snd (evals (tr st'))) [infinity; infinity; 0.015625; infinity]%float = true.
Proof.
  split; [apply LogNeg_demo|]. split; [cbn; lia|]. split; [discriminate|].
  destruct (ran (E := DemoEnv WF f_wall) (@mcmc_sample NWF (DemoEnv WF f_wall) mcw) ww None (fun res st =>
    match sr_all res with
    | Some (X, F) => veq F [infinity; infinity; 0.015625; 0.015625]%float &&
        veq (map snd (evals (tr st))) [infinity; infinity; 0.015625; infinity]%float &&
        forallb (fun e => PrimFloat.leb (snd e) (snd e)) (evals (tr st))
    | None => false end)) as (res & st & Hx & HP); [vm_compute; reflexivity|].
  destruct (sr_all res) as [[X F]|] eqn:Ha; [|discriminate].
  rewrite !andb_true_iff in HP. destruct HP as [[H1 H2] H3].
  exists res, st, X, F. split; [exact Hx|]. split; [|split; [exact Ha|split; assumption]].
  intros x y Hi. rewrite forallb_forall in H3. exact (H3 (x, y) Hi).
Qed.

Lemma all_true (l : list bool) n : forallb (fun b => b) l = true -> length l = n -> l = repeat true n.
Proof.
  intros H <-. induction l as [|[|] l IH]; cbn in *; [reflexivity| |discriminate]. rewrite <- IH; auto.
Qed.

(** hmc from outside: the first flight enters the wall, is accepted with NaN coordinates, and stays there *)
Definition hmw : @HMCArgs NWF := @mkHMCArgs NWF (wargs [0.25; 0.5]%float 4 0.125%float) 1 JacNone 0.03125%float.
Definition wh := script [0.5; 0.5; 0.5]%float [4; 0; -1; 0; 1; 0]%float.
Definition isnan (x : float) : bool := negb (PrimFloat.eqb x x).
Theorem C75_hmc_hypotheses :
  @LogNeg NWF (DemoEnv WF f_wall) /\ hma_jac hmw = JacNone /\ s_constraints (hma hmw) <> Some "Reject"%string /\
  exists res st' X F, @exec NWF (DemoEnv WF f_wall) _ (@hmc_sample NWF (DemoEnv WF f_wall) hmw) wh None = (inl res, st') /\
    sr_all res = Some (X, F) /\
    (* the evaluations of the gradient at the second position of the first step are infinite *)
    veq (map snd (firstn 4 (skipn 5 (evals (tr st'))))) [infinity; infinity; infinity; infinity]%float = true /\
    veq (map snd (firstn 1 (evals (tr st')))) [0.3125]%float = true /\
    map isnan (concat (tl X)) = repeat true 6.
Proof.
  split; [apply LogNeg_demo|]. split; [reflexivity|]. split; [discriminate|].
  destruct (ran (E := DemoEnv WF f_wall) (@hmc_sample NWF (DemoEnv WF f_wall) hmw) wh None (fun res st =>
    match sr_all res with
    | Some (X, F) => veq (map snd (firstn 4 (skipn 5 (evals (tr st))))) [infinity; infinity; infinity; infinity]%float &&
       veq (map snd (firstn 1 (evals (tr st)))) [0.3125]%float &&
       forallb (fun b => b) (map isnan (concat (tl X))) && (length (concat (tl X)) =? 6)
    | None => false end)) as (res & st & Hx & HP); [vm_compute; reflexivity|].
  destruct (sr_all res) as [[X F]|] eqn:Ha; [|discriminate].
  rewrite !andb_true_iff in HP. destruct HP as [[[H1 H2] H3] H4].
  exists res, st, X, F. split; [exact Hx|]. split; [exact Ha|]. split; [exact H1|]. split; [exact H2|].
  apply Nat.eqb_eq in H4. apply all_true; [exact H3|]. rewrite map_length. exact H4.
Qed.

(** C72: a call that meets its hypotheses. *)
From Coq Require Import Reals Lra Permutation.
From Verif Require Import Base Num NumR NumE Env Common DE NA Hoare EvalRules Gen Steps Runs Best Inst Laws Safe
  Feas FeasPso FeasNa VdReal PlainEnv Valid Accept Enough Disc PropPop Calm Cells FeasEx CalmEx Gibbs.
Open Scope R_scope.

Lemma Walked_length rows p nr h t : Walked rows p nr h t -> length h = length t.
Proof.
  induction 1 as [l t H1 H2|h t l t' H IH H1 H2 H3]; [rewrite (Permutation_length H2); reflexivity|].
  rewrite !app_length, IH, (Permutation_length H3). lia.
Qed.

(** At most nine generations of four models in [-1,1] x [0,2], two parents, constant objective. *)
Theorem C72_hypotheses w a0 : let E := EE (fun _ => Fin 1) in
  proper pbox /\ a_bounds (naa p_na) = D2 2 pbox /\
  exists res st' h, exec (na_minimize p_na) w a0 = (inl res, st') /\
    Walked pbox 4 2 h (evals (tr st')) /\ (8 <= length h)%nat.
Proof.
  intros E. split; [exact pbox_proper|]. split; [reflexivity|].
  assert (HV : ValidNA p_na).
  { constructor; [|apply within_ex]. constructor; try reflexivity; try discriminate.
    exists 2%nat. split; [exists pbox; split; reflexivity|exact I]. }
  destruct (C56_exact_returns (EE_OK _) (CallNA p_na) w a0) as (res & st' & Hx).
  { split; [discriminate|]. split; [exact HV|discriminate]. }
  { apply EE_no_raise. }
  assert (HB : a_backend (naa p_na) <> Some "mpi"%string) by discriminate.
  assert (H0 : forall x, a_x0 (naa p_na) = Some x -> Forall (FBox pbox) (nd_rows x)) by discriminate.
  destruct (C72_walks (EE_OK _) p_na pbox eq_refl pbox_proper HB H0 w a0 res st' Hx)
    as (p & nr & h & Hp & Hn & (q & Hq & Hqn) & _ & HN).
  cbn in Hp. assert (p = 4%nat) by lia. subst p. cbn in Hq. injection Hq as <-.
  assert (INR 4 = 4) by (cbn; lra). rewrite H in Hqn. rewrite Rmax_right in Hqn by lra.
  assert (nr = 2%nat).
  { assert (A1 : INR nr < INR 3) by (cbn; lra). assert (A2 : INR 1 < INR nr) by (cbn; lra).
    apply INR_lt in A1. apply INR_lt in A2. lia. }
  subst nr. exists res, st', h. split; [exact Hx|]. split; [exact HN|].
  destruct (C02_nfev_population (CallNA p_na) w a0 res st' (EE_OK _) HB Hx) as (C1 & C2 & C3).
  pose proof (C01_nit_population (CallNA p_na) w a0 res st' (EE_OK _) Hx) as [C4 _].
  pose proof (Walked_length _ _ _ _ _ HN) as C5. cbn in C2. rewrite <- C3 in C1.
  assert (HG : forall n m : nat, n = m -> r_nfev res = Z.of_nat m -> (8 <= n)%nat) by lia. exact (HG _ _ C5 C1).
Qed.

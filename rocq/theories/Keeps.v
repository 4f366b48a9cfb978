(** C73: what every individual of the initial population has in common and the trial formula
    preserves, every later individual has (for every arithmetic; used by Hull.v). *)
From Coq Require Import Permutation.
From Verif Require Import Base Num Env Common DE CPSO NA Hoare EvalRules Gen Steps Hist Runs Best
  Inst HistFacts PropPop Laws Safe Feas Disc FirstPop Trial.

Section Keeps.
  Context {N : Num} {E : Env N}.

  Local Notation "v '@' j" := (nth j v n0) (at level 9, no associativity).
  Local Notation row X i := (nth i X ([] : vec)).

  (** ** Specification *)
  (** [S] is a set of numbers that the strategy's formula does not leave. *)
  Definition Closed (strategy : string) (F : T) (S : T -> Prop) : Prop :=
    (In strategy ["rand1bin"; "best1bin"]%string -> forall a b c, S a -> S b -> S c ->
       S (nadd a (nmul F (nsub b c)))) /\
    (In strategy ["rand2bin"; "best2bin"]%string -> forall a b c d e, S a -> S b -> S c -> S d -> S e ->
       S (nadd a (nmul F (nsub (nsub (nadd b c) d) e)))).

  (** ** Proof *)
  Lemma row_in (Q : vec -> Prop) X i : Forall Q X -> i < length X -> Q (row X i).
  Proof. intros H Hi. rewrite Forall_forall in H. apply H, nth_In, Hi. Qed.

  Lemma evolution_keeps p deferred serial Init (Tr : matrix -> vec -> nat -> vec -> Prop) (Q : vec -> Prop) X f b bf l :
    0 < p ->
    (forall X b i u, length X = p -> Forall Q X -> Q b -> i < p -> Tr X b i u -> Q u) ->
    Evolution p deferred serial Init Tr X f b bf l ->
    Forall (fun e => Q (fst e)) (firstn p l) ->
    length X = p /\ Forall Q X /\ Q b /\ Forall (fun e => Q (fst e)) l /\ p <= length l.
  Proof.
    intros Hp HT HEv. induction HEv as [X f k l HX Hf HI HP HS Hk
      |X f b bf l U y X' f' k l' Hd HEv IH HU Hy HTr HP HS HX' Hf' HXi Hfi Hk
      |X f b bf l i u y X' f' b' bf' Hd HEv IH Hi HTr HX' Hb']; intros HQ.
    - assert (Hl : length l = p).
      { rewrite (Permutation_length HP), combine_length. vlia. }
      rewrite firstn_all2 in HQ by lia.
      assert (HXQ : Forall Q X).
      { apply Forall_forall. intros x Hx. destruct (In_nth _ _ [] Hx) as (i & Hi & <-).
        assert (Hin : In (row X i, f@i) (combine X f)).
        { rewrite <- combine_nth by vlia. apply nth_In. rewrite combine_length. vlia. }
        rewrite Forall_forall in HQ. apply (Permutation_in _ (Permutation_sym HP)), HQ in Hin. exact Hin. }
      split; [exact HX|]. split; [exact HXQ|]. split; [apply row_in; [exact HXQ|vlia]|]. split; [exact HQ|lia].
    - rewrite firstn_app in HQ. apply Forall_app in HQ. destruct HQ as [HQ _].
      destruct (IH HQ) as (H1 & H2 & H3 & H4 & H5).
      assert (HUQ : Forall Q U).
      { apply Forall_forall. intros x Hx. destruct (In_nth _ _ [] Hx) as (i & Hi & <-).
        eapply HT; [exact H1|exact H2|exact H3| |apply HTr]; vlia. }
      assert (HXQ : Forall Q X').
      { apply Forall_forall. intros x Hx. destruct (In_nth _ _ [] Hx) as (i & Hi & <-).
        rewrite HXi by vlia. destruct (nltb _ _); apply row_in; auto; vlia. }
      split; [exact HX'|]. split; [exact HXQ|]. split; [apply row_in; [exact HXQ|vlia]|].
      split; [|rewrite app_length; lia]. apply Forall_app. split; [exact H4|].
      apply Forall_forall. intros [x v] Hx. apply (Permutation_in _ HP), in_combine_l in Hx.
      rewrite Forall_forall in HUQ. apply HUQ, Hx.
    - rewrite firstn_app in HQ. apply Forall_app in HQ. destruct HQ as [HQ _].
      destruct (IH HQ) as (H1 & H2 & H3 & H4 & H5).
      assert (Hu : Q u).
      { eapply HT; [exact H1|exact H2|exact H3| |exact HTr]. subst i. apply Nat.mod_upper_bound. lia. }
      assert (HXl : length X' = p /\ Forall Q X').
      { destruct (nleb y f@i); destruct HX' as [-> _]; [|auto].
        split; [rewrite upd_length; exact H1|]. apply Forall_upd; assumption. }
      split; [apply HXl|]. split; [apply HXl|].
      split. { destruct (nleb y f@i && nleb y bf); destruct Hb' as [-> _]; assumption. }
      split; [|rewrite app_length; lia]. apply Forall_app. split; [exact H4|]. repeat constructor. exact Hu.
  Qed.

  Context (HE : EnvOK).

  (** A given x0 is what is evaluated first (C53), in a form that fits the hypotheses below. *)
  Lemma evals_points : forall t : list event, Forall (fun e => failed e = None) t -> map fst (evals t) = points t.
  Proof.
    induction t as [|e t IH]; intros H; [reflexivity|]. inversion H; subst.
    destruct e as [x [y|n]| | | |]; cbn in *; try discriminate; auto. f_equal. auto.
  Qed.
  Lemma disc_pop c : disc (pop_run c).
  Proof. destruct c; [apply disc_de|apply disc_cpso|apply disc_pso|apply disc_na]. Qed.
  Lemma x0_evals c x w a0 res st' (Q : vec -> Prop) :
    not_mpi c -> a_x0 (pop_args c) = Some x -> match c with CallNA _ => False | _ => True end ->
    exec (pop_run c) w a0 = (inl res, st') -> Forall Q (nd_rows x) ->
    Forall (fun e => Q (fst e)) (firstn (Z.to_nat (a_popsize (pop_args c))) (evals (tr st'))).
  Proof.
    intros Hm Hx0 Hc Hx HQ.
    destruct (C53_x0_first HE c x w a0 res st' Hm Hx0 Hc Hx) as [HP _].
    destruct (disc_pop c (mkSt w [] a0)) as (evs & Htr & Hcl & _). unfold exec in Hx. rewrite Hx in Htr, Hcl. cbn in Htr, Hcl.
    rewrite Htr in *. rewrite <- (evals_points _ Hcl) in HP.
    rewrite firstn_map in HP. apply (Permutation_Forall HP) in HQ. rewrite Forall_map in HQ. exact HQ.
  Qed.

  Lemma de_keeps A rows (Q : vec -> Prop) w a0 res st' :
    a_bounds (dea A) = D2 2 rows ->
    (forall x, a_x0 (dea A) = Some x -> nd_wf x) ->
    a_backend (dea A) <> Some "mpi"%string ->
    (forall X b i u, length X = Z.to_nat (a_popsize (dea A)) -> Forall Q X -> Q b ->
       i < Z.to_nat (a_popsize (dea A)) -> Trial A rows X b i u -> Q u) ->
    exec (de_minimize A) w a0 = (inl res, st') ->
    Forall (fun e => Q (fst e)) (firstn (Z.to_nat (a_popsize (dea A))) (evals (tr st'))) ->
    Forall (fun e => Q (fst e)) (evals (tr st')) /\ Q (r_x res).
  Proof.
    intros Hb Hwf Hm HT Hx HQ.
    destruct (C21_trials HE A rows w a0 res st' Hb Hwf Hm Hx) as (X & f & HEv).
    assert (Hp : 0 < Z.to_nat (a_popsize (dea A))).
    { unfold exec, de_minimize in Hx. pose proof (wp_check_pop (dea A) (fun _ _ => PopArgsOK (dea A)) (mkSt w [] a0) (fun H => H)) as H.
      unfold wp in H. unfold bind at 1 in Hx. destruct (check_pop (dea A) (mkSt w [] a0)) as [[[]|e] s]; [|discriminate].
      pose proof (pao_pop _ H). lia. }
    destruct (evolution_keeps _ _ _ _ _ Q _ _ _ _ _ Hp HT HEv HQ) as (_ & _ & H1 & H2 & _). auto.
  Qed.

  (** Coordinate [j]: a set closed under the formula, within the bounds if points outside are
      redrawn. *)
  Theorem C73_closed A rows w a0 res st' j (S : T -> Prop) :
    a_bounds (dea A) = D2 2 rows ->
    (forall x, a_x0 (dea A) = Some x -> nd_wf x) ->
    a_backend (dea A) <> Some "mpi"%string ->
    j < length rows ->
    Closed (dea_strategy A) (dea_mutation A) S ->
    (a_constraints (dea A) <> None ->
       forall v, S v -> nltb v (row rows j)@0 = false /\ nltb (row rows j)@1 v = false) ->
    exec (de_minimize A) w a0 = (inl res, st') ->
    Forall (fun e => S (fst e)@j) (firstn (Z.to_nat (a_popsize (dea A))) (evals (tr st'))) ->
    Forall (fun e => S (fst e)@j) (evals (tr st')) /\ S (r_x res)@j.
  Proof.
    intros Hb Hwf Hm Hj HC Hcon Hx HQ.
    apply (de_keeps A rows (fun x => S x@j) w a0 res st' Hb Hwf Hm); [|exact Hx|exact HQ].
    intros X b i u HX HXQ Hbq Hi (v & x & (Hvl & ks & Hnd & Hks & Hv) & (Hxl & jr & r & Hjr & Hr & Hcr) & Hrep).
    assert (HR : forall k, In k ks -> S (row X k)@j).
    { intros k Hk. rewrite Forall_forall in Hks. apply (row_in (fun x => S x@j)); [exact HXQ|]. apply Hks, Hk. }
    assert (Hv' : S v@j).
    { destruct HC as [HC1 HC2].
      destruct Hv as [[Hs (k0 & k1 & k2 & -> & Hf)]|[[Hs (k0 & k1 & k2 & k3 & k4 & -> & Hf)]|[[Hs (k0 & k1 & -> & Hf)]|[Hs (k0 & k1 & k2 & k3 & -> & Hf)]]]];
        rewrite Hf by exact Hj; rewrite Hs in *.
      - apply HC1; [cbn; tauto|apply HR; cbn; tauto ..].
      - apply HC2; [cbn; tauto|apply HR; cbn; tauto ..].
      - apply HC1; [cbn; tauto|exact Hbq|apply HR; cbn; tauto ..].
      - apply HC2; [cbn; tauto|exact Hbq|apply HR; cbn; tauto ..]. }
    assert (Hx' : S x@j).
    { rewrite Hcr by exact Hj. destruct (_ || _); [exact Hv'|]. apply (row_in (fun x => S x@j)); [exact HXQ|vlia]. }
    unfold Repaired in Hrep. destruct (a_constraints (dea A)) as [c|]; [|subst u; exact Hx'].
    destruct Hrep as [_ Hrep]. specialize (Hrep j ltac:(vlia)). cbv zeta in Hrep.
    destruct (Hcon ltac:(discriminate) _ Hx') as [H1 H2]. rewrite H1, H2 in Hrep. cbn [orb] in Hrep. rewrite Hrep. exact Hx'.
  Qed.
End Keeps.

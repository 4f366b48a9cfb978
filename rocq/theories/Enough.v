(** C20: the strategies of Differential Evolution need enough individuals. *)
From Verif Require Import Base Num Env Common DE CPSO NA Mat CMAES VDCMA Sample Hoare EvalRules Gen Steps Hist Runs Best
  Inst HistFacts PropPop Disc Laws Valid Accept Safe Feas FirstPop.

(** The number of individuals other than the current one that a strategy combines. *)
Definition needs (strategy : string) : Z :=
  (if String.eqb strategy "rand1bin" then 3
   else if String.eqb strategy "rand2bin" then 5
   else if String.eqb strategy "best1bin" then 2
   else if String.eqb strategy "best2bin" then 4 else 0)%Z.

Section Enough.
  Context {N : Num} {E : Env N}.

  (** [dies C m]: m raises; either user code raised, or IndexError after a number of calls of the
      objective that satisfies [C]. *)
  Definition dies {A} (C : nat -> Prop) (m : M A) : Prop :=
    forall s, exists e s' evs, m s = (inr e, s') /\ tr s' = tr s ++ evs /\
      ((exists n, e = UserError n) \/ (e = IndexError /\ C (ncalls evs))).
  (** [tries C m Q]: m returns after such a number of calls, or user code raised. *)
  Definition tries {A} (C : nat -> Prop) (m : M A) (Q : A -> Prop) : Prop :=
    forall s, exists evs, tr (snd (m s)) = tr s ++ evs /\
      match fst (m s) with inl a => Q a /\ C (ncalls evs) | inr e => exists n, e = UserError n end.

  Lemma dies_raise A : @dies A (fun n => n = 0) (raise IndexError).
  Proof. intros s. exists IndexError, s, []. rewrite app_nil_r. cbn. auto. Qed.
  Lemma dies_l {A B} C (m : M A) (k : A -> M B) : dies C m -> dies C (bind m k).
  Proof.
    intros H s. destruct (H s) as (e & s' & evs & H1 & H2 & H3). exists e, s', evs.
    unfold bind. rewrite H1. auto.
  Qed.
  Lemma dies_silent {A B} C (m : M A) (k : A -> M B) Q :
    silent m Q -> (forall a, Q a -> dies C (k a)) -> dies C (bind m k).
  Proof.
    intros H Hk s. destruct (H s) as (a & s1 & H1 & H2 & H3).
    destruct (Hk a H3 s1) as (e & s' & evs & K1 & K2 & K3). exists e, s', evs.
    unfold bind. rewrite H1, K1, K2, H2. auto.
  Qed.
  Lemma dies_tries {A B} (C C1 C2 : nat -> Prop) (m : M A) (k : A -> M B) Q :
    (forall n1 n2, C1 n1 -> C2 n2 -> C (n1 + n2)) ->
    tries C1 m Q -> (forall a, Q a -> dies C2 (k a)) -> dies C (bind m k).
  Proof.
    intros HC H Hk s. destruct (H s) as (e1 & H1 & H2). unfold bind.
    destruct (m s) as [[a|e] s1]; cbn in *.
    - destruct H2 as [HQ HC1]. destruct (Hk a HQ s1) as (e & s' & evs & K1 & K2 & K3).
      exists e, s', (e1 ++ evs). rewrite K1, K2, H1, app_assoc. split; [reflexivity|]. split; [reflexivity|].
      destruct K3 as [K3|[K3 K4]]; [auto|]. right. rewrite ncalls_app. auto.
    - exists e, s1, e1. auto.
  Qed.

  Lemma tries_silent {A} (m : M A) Q : silent m Q -> tries (fun n => n = 0) m Q.
  Proof.
    intros H s. destruct (H s) as (a & s' & H1 & H2 & H3). exists []. rewrite H1, app_nil_r. cbn. auto.
  Qed.
  Lemma tries_cb X st : tries (fun n => n = 0) (call_cb X st) (fun _ => True).
  Proof.
    intros s. unfold call_cb. destruct (e_cb X st (rs s)) as [[n|] w]; eexists; (split; [reflexivity|]); cbn; eauto.
  Qed.
  Lemma tries_when b m : tries (fun n => n = 0) m (fun _ => True) -> tries (fun n => n = 0) (when b m) (fun _ => True).
  Proof. intros H. destruct b; [exact H|]. apply tries_silent, silent_ret, Logic.I. Qed.
  Lemma tries_bind {A B} (C C1 C2 : nat -> Prop) (m : M A) (k : A -> M B) Q R :
    (forall n1 n2, C1 n1 -> C2 n2 -> C (n1 + n2)) ->
    tries C1 m Q -> (forall a, Q a -> tries C2 (k a) R) -> tries C (bind m k) R.
  Proof.
    intros HC H Hk s. destruct (H s) as (e1 & H1 & H2). unfold bind.
    destruct (m s) as [[a|e] s1]; cbn in *.
    - destruct H2 as [HQ HC1]. destruct (Hk a HQ s1) as (e2 & K1 & K2).
      exists (e1 ++ e2). rewrite K1, H1, app_assoc. split; [reflexivity|].
      destruct (k a s1) as [[b|e] s2]; cbn in *; [|exact K2]. rewrite ncalls_app. intuition.
    - exists e1. auto.
  Qed.
  Lemma tries_call x : tries (fun n => n = 1) (call_fun x) (fun _ => True).
  Proof.
    intros s. unfold call_fun. destruct (e_fun x (rs s)) as [[y|n] w]; eexists; (split; [reflexivity|]); cbn; eauto.
  Qed.
  Lemma tries_mapM X : tries (fun n => n = length X) (mapM call_fun X) (fun f => length f = length X).
  Proof.
    induction X as [|x X IH]; cbn [mapM].
    - intros s. exists []. cbn. rewrite app_nil_r. auto.
    - eapply (tries_bind _ (fun n => n = 1) (fun n => n = length X)); [cbn; intros; lia|apply tries_call|].
      intros y _. eapply (tries_bind _ (fun n => n = length X) (fun n => n = 0)); [cbn; intros; lia|exact IH|].
      intros f Hf. apply tries_silent, silent_ret. cbn. auto.
  Qed.
  Lemma tries_foldM (X : matrix) l : forall f0 : vec,
    tries (fun n => n = length l) (foldM (fun f i => y <- call_fun (nth i X []) ;; ret (upd i y f)) f0 l)
          (fun f => length f = length f0).
  Proof.
    induction l as [|i l IH]; intros f0; cbn [foldM].
    - intros s. exists []. cbn. rewrite app_nil_r. auto.
    - eapply (tries_bind _ (fun n => n = 1) (fun n => n = length l)); [cbn; intros; lia| |].
      + eapply (tries_bind _ (fun n => n = 1) (fun n => n = 0) _ _ (fun _ => True) (fun f => length f = length f0));
          [cbn; intros; lia|apply tries_call|].
        intros y _. apply tries_silent, silent_ret. apply upd_length.
      + intros f Hf s. destruct (IH f s) as (evs & H1 & H2). exists evs. split; [exact H1|].
        destruct (fst _); [|exact H2]. rewrite <- Hf. exact H2.
  Qed.
  Lemma tries_eval_pop m X : ModeOK m -> X <> [] ->
    tries (fun n => m <> Mpi -> n = length X) (eval_pop m X) (fun Xf => length (snd Xf) = length X).
  Proof.
    intros HM HX. destruct m; cbn in HM |- *.
    - eapply (tries_bind _ (fun n => n = length X) (fun n => n = 0)); [cbn; intros; lia|apply tries_mapM|].
      intros f Hf. apply tries_silent, silent_ret. exact Hf.
    - eapply (tries_bind _ (fun n => n = length X) (fun n => n = 0) _ _ (fun f => length f = length X)); [cbn; intros; lia| |].
      + unfold eval_joblib. eapply (tries_bind _ (fun n => n = 0) (fun n => n = length X) _ _ (fun o => length o = length X)); [cbn; intros; lia| |].
        * apply tries_silent. intros s. eexists; eexists. split; [reflexivity|]. split; [reflexivity|].
          rewrite (Permutation_length (HM _ _)). apply seq_length.
        * intros o Ho s.
          destruct (tries_foldM X o (repeat n0 (length X)) s) as (evs & H1 & H2). exists evs. split; [exact H1|].
          destruct (fst _); [|exact H2]. destruct H2 as [H2 H3]. rewrite repeat_length in H2.
          split; [exact H2|]. rewrite H3. exact Ho.
      + intros f Hf. apply tries_silent, silent_ret. exact Hf.
    - unfold eval_mpi. eapply (tries_bind _ (fun _ => True) (fun _ => True) _ _ (fun X' => length X' = length X)); [congruence| |].
      + intros s. eexists. split; [reflexivity|]. cbn. split; [|exact I].
        pose proof (f_equal (@length _) (proj1 HM (nbcast (tr s)) X)) as H. rewrite !map_length in H. exact H.
      + intros X' HL. eapply (tries_bind _ (fun _ => True) (fun _ => True)); [auto| |].
        * intros s. destruct (tries_foldM X' (arange e_rank (length X') e_mpisize) (repeat n0 (length X')) s) as (evs & H1 & H2).
          exists evs. split; [exact H1|]. destruct (fst _); [|exact H2]. split; [exact (proj1 H2)|exact I].
        * intros f Hf. rewrite repeat_length in Hf.
          eapply (tries_bind _ (fun _ => True) (fun _ => True)); [auto| |].
          -- intros s. eexists. split; [reflexivity|]. cbn. instantiate (1 := fun g => length g = length X).
             cbn. split; [|exact I]. rewrite (proj2 HM), Hf. exact HL.
          -- intros g Hg s. exists []. cbn. rewrite app_nil_r. auto.
  Qed.

  (** ** The trial of an individual *)
  Context (HE : EnvOK).

  Definition needs_of (st : Strat) : nat :=
    match st with Rand1bin => 3 | Rand2bin => 5 | Best1bin => 2 | Best2bin => 4 end.
  Lemma needs_map s st : strategy_map s = Some st -> needs s = Z.of_nat (needs_of st).
  Proof.
    unfold strategy_map, needs. destruct (String.eqb s "rand1bin"); [intros [= <-]; reflexivity|].
    destruct (String.eqb s "rand2bin"); [intros [= <-]; reflexivity|].
    destruct (String.eqb s "best1bin"); [intros [= <-]; reflexivity|].
    destruct (String.eqb s "best2bin"); [intros [= <-]; reflexivity|discriminate].
  Qed.

  Lemma mutate_few st (is : list nat) F X b : length is < needs_of st -> mutate st is F X b = None.
  Proof.
    destruct st; unfold mutate, pick;
      destruct is as [|k0 [|k1 [|k2 [|k3 [|k4 is]]]]]; cbn; intros; try reflexivity; lia.
  Qed.
  Lemma mutate_enough st (is : list nat) F X b : needs_of st <= length is -> exists v, mutate st is F X b = Some v.
  Proof.
    destruct st; unfold mutate, pick;
      destruct is as [|k0 [|k1 [|k2 [|k3 [|k4 is]]]]]; cbn; intros; try (exfalso; lia); eauto.
  Qed.
  Lemma silent_shuffle p i : silent (delete_shuffle p i) (fun is => length is = p - 1).
  Proof.
    unfold delete_shuffle. eapply silent_bind.
    - intros s. unfold perm, draw. destruct (e_perm (p - 1) (fst (rs s))) as [pi r] eqn:Hp.
      eexists; eexists. split; [reflexivity|]. split; [reflexivity|].
      pose proof (eo_perm HE (p - 1) (fst (rs s))) as H. rewrite Hp in H. cbn in H.
      instantiate (1 := fun pi => length pi = p - 1). cbn. rewrite (Permutation_length H). apply seq_length.
    - intros pi Hpi. apply silent_ret. rewrite map_length. exact Hpi.
  Qed.
  Lemma silent_mapM {A B} (f : A -> M B) (R : B -> Prop) l : (forall a, silent (f a) R) ->
    silent (mapM f l) (fun bs => length bs = length l /\ Forall R bs).
  Proof.
    intros H. induction l as [|a l IH]; cbn [mapM].
    - apply silent_ret. auto.
    - eapply silent_bind; [apply H|]. intros b Hb. eapply silent_bind; [exact IH|]. intros bs [Hl HF].
      apply silent_ret. cbn. auto.
  Qed.
  Lemma silent_rand_mat p d : silent (rand_mat p d) (fun _ => True).
  Proof.
    intros s. destruct (silent_replicateM p (replicateM d rand) (fun l => length l = d)
      (silent_replicateM d rand (fun _ => True) (silent_draw _)) s) as (a & s' & H1 & H2 & _).
    exists a, s'. auto.
  Qed.

  Lemma dies_de_step P sync it s : de_p P - 1 < needs_of (de_strat P) -> 1 <= de_p P -> de_list P = false ->
    dies (fun n => n = 0) (de_step P sync it s).
  Proof.
    intros Hn Hp Hl. unfold de_step. eapply dies_silent; [apply silent_rand_mat|]. intros r1 _.
    eapply dies_silent; [apply silent_if, Hl|]. intros _ _. apply dies_l.
    destruct (de_p P) as [|p] eqn:Ep; [lia|]. destruct sync.
    - unfold de_sync. apply dies_l. unfold de_cands. rewrite Ep.
      eapply dies_silent; [apply (silent_mapM _ (fun is => length is = S p - 1)); apply silent_shuffle|].
      intros iss [HL HF]. rewrite seq_length in HL. destruct iss as [|is iss]; [discriminate|].
      apply dies_l. cbn [mapM]. apply dies_l. pose proof (Forall_inv HF) as Hi. cbv beta in Hi.
      rewrite mutate_few by lia. apply dies_raise.
    - unfold de_async. apply dies_l. rewrite Ep. cbn [seq foldM]. apply dies_l.
      unfold de_async_one. cbn zeta. apply dies_l. unfold de_cand1. rewrite Ep.
      eapply dies_silent; [apply silent_shuffle|]. intros is Hi. apply dies_l.
      cbv beta in Hi. rewrite mutate_few by lia. apply dies_raise.
  Qed.

  Lemma silent_x0_len a lo hi d : ValidPop a ->
    silent (match a_x0 a with Some x => ret (nd_rows x) | None => lhs (Z.to_nat (a_popsize a)) d lo hi end)
           (fun X => length X = Z.to_nat (a_popsize a)).
  Proof.
    intros [_ (ndim & _ & H3) H4 _]. destruct (a_x0 a) as [x|].
    - destruct H3 as (m & -> & H3). apply silent_ret. cbn. lia.
    - apply silent_lhs.
  Qed.

  Tactic Notation "sil" uconstr(L) := eapply dies_silent; [eapply L|].

  (** C20: with fewer than [needs] other individuals a run with valid arguments evaluates the
      initial population and stops with IndexError (unless the user's functions raise before). *)
  Theorem C20_too_few A w a0 r st' :
    ValidDE A -> (a_x0 (dea A) <> None -> a_x0_array (dea A) = true) -> a_return_all (dea A) = false ->
    (a_popsize (dea A) - 1 < needs (dea_strategy A))%Z ->
    exec (de_minimize A) w a0 = (r, st') ->
    (exists n, r = inr (UserError n)) \/
    (r = inr IndexError /\
     (a_backend (dea A) <> Some "mpi"%string -> Z.of_nat (ncalls (tr st')) = a_popsize (dea A))).
  Proof.
    intros HV Hx0 Hra Hn Hx.
    assert (H : dies (fun n => a_backend (dea A) <> Some "mpi"%string -> Z.of_nat n = a_popsize (dea A)) (de_minimize A)).
    { clear Hx. destruct HV as [H1 H2 H3 H4 H5 H6]. pose proof (vp_pop _ H1) as Hp2.
      unfold de_minimize. cbn zeta.
      sil silent_check_pop; [exact H1|]. intros _ _.
      sil silent_if; [apply within_outside, H2|]. intros _ _.
      sil silent_if; [apply within_outside, H3|]. intros _ _.
      sil silent_check_updating; [exact H5|]. intros _ _.
      destruct (strategy_ok _ H4) as [st Hst].
      sil silent_orelse; [exact Hst|]. intros st'' ->. rewrite (needs_map _ _ Hst) in Hn.
      sil silent_seed_and_cb; [apply H1|]. intros _ _.
      assert (Hlist : match a_x0 (dea A) with Some _ => negb (a_x0_array (dea A)) | None => false end = false).
      { destruct (a_x0 (dea A)); [rewrite Hx0 by discriminate|]; reflexivity. }
      unfold de. unfold eval_kindM.
      destruct (C23_no_backend_error (is_sync (dea_updating A) (dea A)) (a_workers (dea A)) (a_backend (dea A))) as (m & Hm & _).
      rewrite Hm. eapply dies_silent; [apply (silent_ret m (fun m' => m' = m) eq_refl)|]. intros m' ->. cbn zeta.
      destruct (vp_bounds _ H1) as (ndim & (rows & Hb & Hl) & _).
      sil silent_unpack; [exact Hb|]. intros [lo hi] _.
      assert (Hc : exists c, de_cons_map (a_constraints (dea A)) = Some c)
        by (destruct H6 as [<-|[<-|[]]]; eexists; reflexivity).
      destruct Hc as [c Hc]. sil silent_orelse; [exact Hc|]. intros c' ->.
      sil silent_x0_len; [exact H1|]. intros X HX.
      sil silent_if; [rewrite Hlist; reflexivity|]. intros _ _.
      assert (HXn : X <> []) by (intros ->; cbn in HX; lia).
      eapply (dies_tries _ (fun n => m <> Mpi -> n = length X) (fun n => n = 0)); [|apply tries_eval_pop; [apply EnvOK_mode, HE|exact HXn]|].
      - intros n1 n2 Hn1 -> Hb'. rewrite Nat.add_0_r, Hn1, HX by exact (kind_not_mpi _ _ _ _ Hb' Hm). lia.
      - intros [X' f] Hf. cbn [snd] in Hf.
        eapply (dies_tries _ (fun n => n = 0) (fun n => n = 0)); [cbn; intros; lia| |].
        { apply tries_when, tries_silent. intros s. eexists; eexists. repeat split. }
        intros _ _. eapply dies_silent.
        { instantiate (1 := fun _ => True). destruct f as [|y f]; [exfalso; destruct X; [congruence|discriminate]|].
          apply silent_ret, I. }
        intros gb _. rewrite Hra. cbn [rec_alloc]. eapply dies_silent; [apply (silent_ret None (fun o => o = None) eq_refl)|].
        intros o ->. eapply dies_silent; [apply (silent_ret None (fun o => o = None) eq_refl)|]. intros o ->.
        eapply (dies_tries _ (fun n => n = 0) (fun n => n = 0)); [cbn; intros; lia|apply tries_when, tries_cb|].
        intros _ _. unfold fuel. rewrite Nat.add_comm. cbn [plus drive]. apply dies_l.
        cbn [d_step de_drv]. apply dies_de_step; cbn [de_p de_strat de_list]; [lia|lia|exact Hlist]. }
    destruct (H (mkSt w [] a0)) as (e & s' & evs & H1 & H2 & H3). unfold exec in Hx. rewrite H1 in Hx.
    injection Hx as <- <-. cbn in H2. rewrite H2. destruct H3 as [[n ->]|[-> H3]]; [left; eauto|right; auto].
  Qed.

  (** The user's functions that do not raise: IndexError for certain. *)
  Corollary C20_too_few_index_error A w a0 r st' :
    ValidDE A -> (a_x0 (dea A) <> None -> a_x0_array (dea A) = true) -> a_return_all (dea A) = false ->
    (a_popsize (dea A) - 1 < needs (dea_strategy A))%Z ->
    exec (de_minimize A) w a0 = (r, st') ->
    (forall e, In e (tr st') -> failed e = None) -> r = inr IndexError.
  Proof.
    intros HV Hx0 Hra Hn Hx Hf. destruct (C20_too_few A w a0 r st' HV Hx0 Hra Hn Hx) as [[n ->]|[H _]]; [|exact H].
    assert (Hx' : exec (any_run (RunDE A)) w a0 = (inr (UserError n), st')).
    { unfold exec, any_run, forget, bind in *. rewrite Hx. reflexivity. }
    pose proof (C25_no_other (RunDE A) w a0 _ st' Hx') as (t & e & Ht & He).
    rewrite (Hf e) in He; [discriminate|]. rewrite Ht. apply in_or_app. right. left. reflexivity.
  Qed.

  (** ** Enough individuals *)

  (** [spares m Q]: no IndexError *)
  Definition spares {A} (m : M A) (Q : A -> Prop) : Prop :=
    forall s, match fst (m s) with inl a => Q a | inr e => e <> IndexError end.

  Lemma spares_ret {A} (a : A) (Q : A -> Prop) : Q a -> spares (ret a) Q.
  Proof. intros H s. exact H. Qed.
  Lemma spares_raise {A} e (Q : A -> Prop) : e <> IndexError -> spares (raise e) Q.
  Proof. intros H s. exact H. Qed.
  Lemma spares_bind {A B} (m : M A) (k : A -> M B) R Q :
    spares m R -> (forall a, R a -> spares (k a) Q) -> spares (bind m k) Q.
  Proof.
    intros H Hk s. specialize (H s). unfold bind. destruct (m s) as [[a|e] s1]; cbn in *; [apply Hk, H|exact H].
  Qed.
  Lemma spares_conseq {A} (m : M A) (R Q : A -> Prop) : spares m R -> (forall a, R a -> Q a) -> spares m Q.
  Proof. intros H HQ s. specialize (H s). destruct (fst (m s)); auto. Qed.
  Lemma spares_draw {A} (f : RNG -> A * RNG) : spares (draw f) (fun _ => True).
  Proof. intros s. unfold draw. destruct (f (fst (rs s))). exact I. Qed.
  Lemma spares_silent {A} (m : M A) Q : silent m Q -> spares m Q.
  Proof. intros H s. destruct (H s) as (a & s' & -> & _ & HQ). exact HQ. Qed.
  Lemma spares_tries {A} C (m : M A) Q : tries C m Q -> spares m Q.
  Proof.
    intros H s. destruct (H s) as (evs & _ & HQ). destruct (fst (m s)); [apply HQ|].
    destruct HQ as [n ->]. discriminate.
  Qed.
  Lemma spares_raise_if b e (Q : unit -> Prop) : e <> IndexError -> (b = false -> Q tt) -> spares (raise_if b e) Q.
  Proof. intros He H. destruct b; [apply spares_raise, He|apply spares_ret; auto]. Qed.
  Lemma spares_orelse {A} (o : option A) e : e <> IndexError -> spares (orelse o e) (fun a => o = Some a).
  Proof. intros He. destruct o; [apply spares_ret; auto|apply spares_raise, He]. Qed.
  Lemma spares_mapM {A B} (f : A -> M B) (P : A -> Prop) (R : B -> Prop) l : (forall a, P a -> spares (f a) R) ->
    Forall P l -> spares (mapM f l) (Forall R).
  Proof.
    intros H HF. induction HF as [|a l Ha HF IH]; cbn [mapM]; [apply spares_ret; auto|].
    eapply spares_bind; [apply H, Ha|]. intros b Hb. eapply spares_bind; [exact IH|]. intros bs Hbs.
    apply spares_ret; auto.
  Qed.
  Lemma spares_replicateM {A} n (m : M A) : spares m (fun _ => True) -> spares (replicateM n m) (fun _ => True).
  Proof.
    intros H. induction n as [|n IH]; cbn [replicateM]; [apply spares_ret, I|].
    eapply spares_bind; [exact H|]. intros a _. eapply spares_bind; [exact IH|]. intros l _. apply spares_ret, I.
  Qed.
  Lemma spares_foldM {A B} (f : A -> B -> M A) (l : list B) : (forall a b, spares (f a b) (fun _ => True)) ->
    forall a, spares (foldM f a l) (fun _ => True).
  Proof.
    intros H. induction l as [|b l IH]; intros a; cbn [foldM]; [apply spares_ret, I|].
    eapply spares_bind; [apply H|]. intros a' _. apply IH.
  Qed.

  Lemma spares_cons c lo hi u : spares (de_cons c lo hi u) (fun _ => True).
  Proof.
    destruct c; [apply spares_ret, I|]. unfold de_cons. eapply spares_bind.
    - unfold uniform_vec, uniform_row. eapply spares_bind with (R := fun _ => True).
      { unfold urange. destruct (frange _ _); [apply spares_ret, I|apply spares_raise; discriminate]. }
      intros _ _. apply (spares_mapM _ (fun _ => True) (fun _ => True)); [|apply Forall_forall; auto].
      intros b _. unfold uniform. eapply spares_bind; [apply spares_draw|]. intros r _. apply spares_ret, I.
    - intros r _. apply spares_ret, I.
  Qed.
  Lemma spares_randint d : spares (np_randint d) (fun _ => True).
  Proof. destruct d; [apply spares_raise; discriminate|apply spares_draw]. Qed.
  Lemma spares_mutate st is F X b : needs_of st <= length is ->
    spares (orelse (mutate st is F X b) IndexError) (fun _ => True).
  Proof. intros H. destruct (mutate_enough st is F X b H) as [v ->]. apply spares_ret, I. Qed.

  Lemma spares_cand1 P r1 i X b : needs_of (de_strat P) <= de_p P - 1 ->
    spares (de_cand1 P r1 i X b) (fun _ => True).
  Proof.
    intros Hn. unfold de_cand1. eapply spares_bind; [apply spares_silent, silent_shuffle|]. intros is Hi.
    eapply spares_bind; [apply spares_mutate; vlia|]. intros v _.
    eapply spares_bind; [apply spares_randint|]. intros ir _. apply spares_cons.
  Qed.
  Lemma spares_cands P r1 X b : needs_of (de_strat P) <= de_p P - 1 ->
    spares (de_cands P r1 X b) (fun _ => True).
  Proof.
    intros Hn. unfold de_cands.
    eapply spares_bind; [apply spares_silent, (silent_mapM _ (fun is => length is = de_p P - 1)); apply silent_shuffle|].
    intros iss [_ HF]. eapply spares_bind.
    { apply (spares_mapM _ (fun is => length is = de_p P - 1) (fun _ => True)); [|exact HF].
      intros is Hi. apply spares_mutate. vlia. }
    intros V _. eapply spares_bind; [apply spares_replicateM, spares_randint|]. intros ir _.
    eapply spares_conseq; [apply (spares_mapM _ (fun _ => True) (fun _ => True)); [|apply Forall_forall; auto]|auto].
    intros u _. apply spares_cons.
  Qed.
  Lemma spares_call x : spares (call_fun x) (fun _ => True).
  Proof. eapply spares_tries, tries_call. Qed.
  Lemma spares_eval_pop m X : spares (eval_pop m X) (fun _ => True).
  Proof.
    destruct m; cbn [eval_pop].
    - eapply spares_bind; [eapply spares_tries, tries_mapM|]. intros f _. apply spares_ret, I.
    - eapply (spares_bind _ _ (fun _ => True)); [|intros f _; apply spares_ret, I]. unfold eval_joblib.
      eapply (spares_bind _ _ (fun _ => True)); [intros s; exact I|]. intros o _. eapply spares_conseq; [eapply spares_tries, tries_foldM|auto].
    - unfold eval_mpi. eapply (spares_bind _ _ (fun _ => True)); [intros s; exact I|]. intros X' _.
      eapply spares_bind; [eapply spares_tries, tries_foldM|]. intros f _.
      eapply (spares_bind _ _ (fun _ => True)); [intros s; exact I|]. intros g _. apply spares_ret, I.
  Qed.
  Lemma spares_argmin f : spares (np_argmin f) (fun _ => True).
  Proof. destruct f; [apply spares_raise; discriminate|apply spares_ret, I]. Qed.
  Lemma spares_alias P X : spares (set_alias P X) (fun _ => True).
  Proof. unfold set_alias. destruct (de_alias P); intros s; exact I. Qed.
  Lemma spares_write no mx it X f b r : (no <> None -> (it <= mx)%Z) ->
    spares (rec_write no mx it X f b r) (fun _ => True).
  Proof.
    intros H. destruct no as [n|]; [|apply spares_ret, I]. destruct r as [r|]; [|apply spares_ret, I].
    unfold rec_write. eapply spares_bind; [|intros r' _; apply spares_ret, I].
    instantiate (1 := fun _ => True). unfold rec_put. replace (mx <? it)%Z with false by (symmetry; apply Z.ltb_ge, H; discriminate).
    destruct (0 <? n)%Z; [|apply spares_ret, I].
    eapply spares_bind; [apply spares_orelse; discriminate|]. intros rows _.
    eapply spares_bind; [apply spares_orelse; discriminate|]. intros fs _. apply spares_ret, I.
  Qed.

  Lemma spares_de_step P sync it s : needs_of (de_strat P) <= de_p P - 1 ->
    (de_nout P <> None -> (it <= de_maxiter P)%Z) ->
    spares (de_step P sync it s) (fun ss => snd ss = None -> (it < de_maxiter P)%Z).
  Proof.
    intros Hn Hit. unfold de_step. eapply spares_bind; [apply spares_silent, silent_rand_mat|]. intros r1 _.
    eapply spares_bind; [apply (spares_raise_if _ _ (fun _ => True)); [discriminate|auto]|]. intros _ _.
    eapply (spares_bind _ _ (fun ss => snd ss = None -> (it < de_maxiter P)%Z)).
    - destruct sync.
      + unfold de_sync. eapply spares_bind; [apply spares_cands, Hn|]. intros U _.
        eapply (spares_bind _ _ (fun sel => ss_status sel = None -> (it < de_maxiter P)%Z)).
        * unfold selection_sync. eapply spares_bind; [apply spares_eval_pop|]. intros [c f] _.
          eapply spares_bind; [apply spares_argmin|]. intros _ _. apply spares_ret. unfold sync_sel, sync_status. cbn [ss_status].
          destruct (_ && _); [discriminate|]. destruct (nleb _ _); [discriminate|].
          destruct (de_maxiter P <=? it)%Z eqn:Hm; [discriminate|]. intros _. apply Z.leb_gt, Hm.
        * intros sel Hs. eapply spares_bind; [apply spares_alias|]. intros _ _. apply spares_ret. exact Hs.
      + unfold de_async. eapply spares_bind.
        * apply spares_foldM. intros [s0 o0] i. unfold de_async_one. cbn zeta.
          eapply spares_bind; [apply spares_cand1, Hn|]. intros u _.
          eapply (spares_bind _ _ (fun _ => True)).
          { unfold selection_async. eapply spares_bind; [apply spares_call|]. intros y _. apply spares_ret, I. }
          intros sel _. eapply spares_bind; [apply spares_alias|]. intros _ _. apply spares_ret, I.
        * intros [s' st] _. apply spares_ret. cbn [snd]. destruct st; [discriminate|].
          destruct (de_maxiter P <=? it)%Z eqn:Hm; [discriminate|]. intros _. apply Z.leb_gt, Hm.
    - intros [s' st] Hs. eapply spares_bind; [apply spares_write, Hit|]. intros r _. apply spares_ret. exact Hs.
  Qed.

  Lemma spares_when b m : spares m (fun _ => True) -> spares (when b m) (fun _ => True).
  Proof. intros H. destruct b; [exact H|apply spares_ret, I]. Qed.

  Lemma spares_drive P sync cb k : needs_of (de_strat P) <= de_p P - 1 ->
    forall it s, (de_nout P <> None -> (it + 1 <= de_maxiter P)%Z) ->
    spares (drive (de_drv P sync) cb k it s) (fun _ => True).
  Proof.
    intros Hn. induction k as [|k IH]; intros it s Hit; cbn [drive]; [apply spares_raise; discriminate|].
    cbn [d_step de_drv]. eapply spares_bind; [apply spares_de_step; [exact Hn|exact Hit]|].
    intros [s' st] Hs. cbn [snd] in Hs.
    eapply spares_bind; [apply spares_when; eapply spares_tries, tries_cb|]. intros _ _.
    destruct st as [c|].
    - unfold result. eapply spares_bind; [apply spares_orelse; discriminate|]. intros m _. apply spares_ret, I.
    - cbn [d_post]. eapply (spares_bind _ _ (fun _ => True)); [apply spares_ret, I|]. intros s2 _. apply IH.
      intros _. specialize (Hs eq_refl). lia.
  Qed.

  (** C20: with enough individuals there is no IndexError (recording needs two iterations, see
      C18). *)
  Theorem C20_enough A w a0 r st' :
    (needs (dea_strategy A) <= a_popsize (dea A) - 1)%Z ->
    (a_return_all (dea A) = true -> (2 <= a_maxiter (dea A))%Z) ->
    exec (de_minimize A) w a0 = (r, st') -> r <> inr IndexError.
  Proof.
    intros Hn Hra Hx.
    assert (H : spares (de_minimize A) (fun _ => True)).
    { clear Hx. unfold de_minimize, check_pop, check_updating, seed_and_cb. cbn zeta.
      repeat lazymatch goal with
      | |- spares (bind (bind _ _) _) _ => eapply spares_bind
      | |- spares (bind (raise_if _ _) _) _ =>
          eapply spares_bind; [apply (spares_raise_if _ _ (fun _ => True)); [discriminate|auto]|intros _ _]
      | |- spares (raise_if _ _) _ => apply (spares_raise_if _ _ (fun _ => True)); [discriminate|auto]
      | |- forall a, _ => intros _ _
      end.
      eapply spares_bind; [apply spares_orelse; discriminate|]. intros st Hst. rewrite (needs_map _ _ Hst) in Hn.
      eapply (spares_bind _ _ (fun _ => True)).
      { eapply spares_bind; [apply spares_silent, silent_seed|]. intros _ _.
        apply (spares_raise_if _ _ (fun _ => True)); [discriminate|auto]. }
      intros _ _. unfold de. eapply (spares_bind _ _ (fun _ => True)).
      { unfold eval_kindM. destruct (C23_no_backend_error (is_sync (dea_updating A) (dea A)) (a_workers (dea A)) (a_backend (dea A))) as (m & -> & _).
        apply spares_ret, I. }
      intros m _. cbn zeta. eapply (spares_bind _ _ (fun _ => True)).
      { unfold unpack_bounds. destruct (a_bounds (dea A)) as [|v|[|[|[|k]]] rows]; try (apply spares_raise; discriminate). apply spares_ret, I. }
      intros [lo hi] _. eapply spares_bind; [apply spares_orelse; discriminate|]. intros con _.
      eapply (spares_bind _ _ (fun _ => True)).
      { destruct (a_x0 (dea A)); [apply spares_ret, I|]. eapply spares_conseq; [apply spares_silent, silent_lhs|auto]. }
      intros X _. eapply spares_bind; [apply (spares_raise_if _ _ (fun _ => True)); [discriminate|auto]|]. intros _ _.
      eapply spares_bind; [apply spares_eval_pop|]. intros [X' f] _.
      eapply spares_bind; [apply spares_when; intros s; exact I|]. intros _ _.
      eapply spares_bind; [apply spares_argmin|]. intros gb _.
      eapply (spares_bind _ _ (fun no => no <> None -> (2 <= a_maxiter (dea A))%Z)).
      { unfold rec_alloc. destruct (a_return_all (dea A)); [|apply spares_ret; congruence].
        unfold rec_nout. eapply spares_bind; [apply spares_orelse; unfold int_exn; destruct (_ =? _)%num; discriminate|]. intros no _.
        destruct (a_maxiter (dea A) <? 0)%Z; [apply spares_raise; discriminate|]. apply spares_ret. auto. }
      intros no Hno. eapply spares_bind; [apply spares_write; intros H; specialize (Hno H); lia|]. intros rc _.
      eapply spares_bind; [apply spares_when; eapply spares_tries, tries_cb|]. intros _ _.
      apply spares_drive; [cbn; lia|]. cbn. intros H. specialize (Hno H). lia. }
    specialize (H (mkSt w [] a0)). unfold exec in Hx. rewrite Hx in H. cbn in H. destruct r as [a|e]; congruence.
  Qed.

  (** popsize = 2 passes the validation and is too small for every strategy. *)
  Corollary C20_two_individuals A w a0 r st' :
    ValidDE A -> (a_x0 (dea A) <> None -> a_x0_array (dea A) = true) -> a_return_all (dea A) = false ->
    a_popsize (dea A) = 2%Z -> exec (de_minimize A) w a0 = (r, st') ->
    (forall e, In e (tr st') -> failed e = None) -> r = inr IndexError.
  Proof.
    intros HV Hx0 Hra Hp Hx Hf. eapply C20_too_few_index_error; eauto. rewrite Hp.
    destruct (vd_str _ HV) as [<-|[<-|[<-|[<-|[]]]]]; reflexivity.
  Qed.
End Enough.

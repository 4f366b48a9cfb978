(** C17: the restart of competitive PSO; C05 and C06 for cpso in binary64. *)
From Coq Require Import Floats.
From Verif Require Import Base Num NumF Env Common DE CPSO NA Hoare EvalRules Gen Steps Hist Runs Best
  Inst HistFacts HistBest PropPop Laws Safe Feas.

Section Restart.
  Context {N : Num} {E : Env N}.

  Local Notation "v '@' j" := (nth j v n0) (at level 9, no associativity).
  Local Notation row X i := (nth i X ([] : vec)).

  (** A swarm of [p] particles. *)
  Definition Swarm (p : nat) (s : PSOS) : Prop :=
    length (pss_X s) = p /\ length (pss_V s) = p /\ length (pss_pbest s) = p /\ length (pss_pbestfit s) = p.

  (** The particles [K] of the swarm [s] are reset. *)
  Record ResetOf (lower upper : vec) (p d : nat) (K : list nat) (s s' : PSOS) : Prop := {
    rs_set : NoDup K /\ Forall (fun i => i < p) K;
    rs_V : forall i, In i K -> row (pss_V s') i = repeat n0 d;
    rs_X : forall i, In i K -> exists r, draws d r /\ length (row (pss_X s') i) = d /\
             forall j, j < d -> (row (pss_X s') i)@j = nadd lower@j (nmul (nsub upper@j lower@j) r@j);
    rs_pbest : forall i, In i K -> row (pss_pbest s') i = row (pss_X s') i;
    rs_fit : forall i, In i K -> (pss_pbestfit s')@i = nlit 1 30;
    (* nothing else changes *)
    rs_others : forall i, ~ In i K ->
      row (pss_V s') i = row (pss_V s) i /\ row (pss_X s') i = row (pss_X s) i /\
      row (pss_pbest s') i = row (pss_pbest s) i /\ (pss_pbestfit s')@i = (pss_pbestfit s)@i;
    rs_best : pss_gbest s' = pss_gbest s /\ pss_gfit s' = pss_gfit s;
    rs_swarm : Swarm p s' }.

  (** They are the worst ones. *)
  Definition Worst (p : nat) (f : vec) (K : list nat) : Prop :=
    (forall i j, In i K -> j < p -> ~ In j K -> nleb f@j f@i = true) /\
    exists j, j < p /\ ~ In j K /\ forall i, i < p -> nleb f@j f@i = true.

  Lemma upd_nth_same {A} i (a d : A) : forall l, i < length l -> nth i (upd i a l) d = a.
  Proof. induction i as [|i IH]; intros [|b l] H; cbn in *; try lia; auto. apply IH; lia. Qed.

  Lemma upd_many_at {A} (d : A) idx : NoDup idx -> forall rows l k, length rows = length idx ->
    Forall (fun i => i < length l) idx -> k < length idx ->
    nth (nth k idx 0) (upd_many idx rows l) d = nth k rows d.
  Proof.
    induction 1 as [|a idx Ha Hnd IH]; intros [|r rows] l k Hl HF Hk; cbn in *; try lia.
    inversion HF; subst. destruct k as [|k]; cbn.
    - rewrite upd_many_nth_other by exact Ha. apply upd_nth_same. assumption.
    - apply IH; [lia| |lia]. eapply Forall_impl; [|eassumption]. cbn. intros i Hi. rewrite upd_length. exact Hi.
  Qed.

  Lemma nth_repeat_in {B} (v d : B) n i : i < n -> nth i (repeat v n) d = v.
  Proof. revert i; induction n as [|n IH]; intros [|i] H; cbn; try lia; auto. apply IH; lia. Qed.

  Lemma NoDup_skip {A} (l1 l2 : list A) : NoDup (l1 ++ l2) -> NoDup l2.
  Proof. induction l1; cbn; auto. inversion 1; auto. Qed.

  Context (HE : EnvOK).

  Lemma quiet_uniform_row_draws lower upper : length lower = length upper ->
    quiet (uniform_row lower upper) (fun x => exists r, draws (length lower) r /\ length x = length lower /\
      forall j, j < length lower -> x@j = nadd lower@j (nmul (nsub upper@j lower@j) r@j)).
  Proof.
    unfold uniform_row. revert upper. induction lower as [|lo lower IH]; intros [|hi upper] HL; cbn in HL; try lia.
    - cbn. apply quiet_ret. exists []. split; [split; [|constructor]; reflexivity|]. split; [reflexivity|]. cbn. intros; lia.
    - cbn [combine mapM fst snd]. eapply quiet_bind.
      { unfold uniform. eapply quiet_bind; [apply quiet_rand'|]. intros u Hu.
        apply (quiet_ret _ (fun y => exists u, isrand u /\ y = nadd lo (nmul (nsub hi lo) u))). eauto. }
      intros y (u & Hu & ->). eapply quiet_bind; [apply IH; lia|]. intros x (r & [Hr1 Hr2] & Hl & Hx).
      apply quiet_ret. exists (u :: r). split; [split; cbn; [f_equal; exact Hr1|constructor; auto]|].
      split; [cbn; f_equal; exact Hl|]. intros [|j] Hj; cbn; [reflexivity|]. apply Hx. cbn in Hj. lia.
  Qed.

  Lemma worst_facts (f : vec) n : n <= length f ->
    let l := e_argsort f in
    worst f n = rev (skipn (length f - n) l) /\ NoDup (worst f n) /\ length (worst f n) = n /\
    Forall (fun i => i < length f) (worst f n).
  Proof.
    intros Hn l. assert (HA : ArgsortPerm) by apply (eo_argsort HE).
    destruct (seq_perm_facts _ _ (HA f)) as [Hnd Hin].
    assert (Hl : length l = length f) by (unfold l; rewrite (Permutation_length (HA f)), seq_length; reflexivity).
    assert (Hw : worst f n = rev (skipn (length f - n) l)).
    { unfold worst. fold l. rewrite firstn_rev, Hl. reflexivity. }
    split; [exact Hw|]. rewrite Hw. split; [|split].
    - apply NoDup_rev. fold l in Hnd. rewrite <- (firstn_skipn (length f - n) l) in Hnd.
      eapply NoDup_skip, Hnd.
    - rewrite rev_length, skipn_length, Hl. lia.
    - apply Forall_forall. intros i Hi. apply in_rev in Hi. apply Hin. fold l.
      rewrite <- (firstn_skipn (length f - n) l). apply in_or_app; auto.
  Qed.

  Lemma worst_Worst (L : OrdLaws num_arith) (f : vec) n : Forall isnum f -> n < length f -> Worst (length f) f (worst f n).
  Proof.
    intros Hnum Hn. destruct (worst_facts f n ltac:(lia)) as (Hw & Hnd & Hlen & HF).
    destruct (eo_argsort HE) as [HP HS]. set (l := e_argsort f) in *.
    destruct (seq_perm_facts _ _ (HP f)) as [Hndl Hin]. fold l in Hndl, Hin.
    assert (Hl : length l = length f) by (unfold l; rewrite (Permutation_length (HP f)), seq_length; reflexivity).
    set (m := length f - n) in *.
    assert (Hall : forall j, j < length f -> exists a, a < length f /\ nth a l 0 = j).
    { intros j Hj. assert (Hjl : In j l).
      { eapply Permutation_in; [symmetry; apply HP|]. apply in_seq. lia. }
      apply (In_nth _ _ 0) in Hjl. destruct Hjl as (a & Ha & Hn'). exists a. split; [lia|exact Hn']. }
    assert (Hins : forall a, a < length f -> In (nth a l 0) (worst f n) <-> m <= a).
    { intros a Ha. rewrite Hw, <- in_rev. split.
      - intros Hi. destruct (Nat.le_gt_cases m a) as [|Hlt]; [assumption|exfalso].
        apply (In_nth _ _ 0) in Hi. destruct Hi as (b & Hb & Hbe). rewrite skipn_length in Hb.
        assert (nth (m + b) l 0 = nth a l 0).
        { rewrite <- Hbe, <- (firstn_skipn m l) at 1. rewrite app_nth2; rewrite firstn_length; [f_equal; lia|lia]. }
        assert (m + b = a); [|lia]. eapply NoDup_nth; [exact Hndl|lia|lia|exact H].
      - intros Hm. rewrite <- (firstn_skipn m l) at 1. rewrite app_nth2; rewrite firstn_length; [|lia].
        apply nth_In. rewrite skipn_length. lia. }
    assert (Hle : forall a b, a <= b -> b < length f -> nleb f@(nth a l 0) f@(nth b l 0) = true).
    { intros a b Hab Hb. destruct (Nat.eq_dec a b) as [->|Hne].
      - apply (Forall_nth_lt _ _ n0 _ Hnum). apply Hin, nth_In. lia.
      - apply (HS f Hnum a b); lia. }
    split.
    - intros i j Hi Hj Hni. rewrite Forall_forall in HF. specialize (HF i Hi).
      destruct (Hall i HF) as (b & Hb & <-). destruct (Hall j Hj) as (a & Ha & <-).
      rewrite Hins in Hi, Hni by assumption. apply Hle; lia.
    - exists (nth 0 l 0). split; [apply Hin, nth_In; lia|]. split; [rewrite Hins; lia|].
      intros i Hi. destruct (Hall i Hi) as (b & Hb & <-). apply Hle; lia.
  Qed.

  (** The model's restart, as a reset. *)
  Lemma Restarted_ResetOf P K rows s s' :
    Swarm (ps_p P) s -> NoDup K -> Forall (fun i => i < ps_p P) K -> length rows = length K ->
    Forall (fun x => exists r, draws (ps_d P) r /\ length x = ps_d P /\
      forall j, j < ps_d P -> x@j = nadd (ps_lower P)@j (nmul (nsub (ps_upper P)@j (ps_lower P)@j) r@j)) rows ->
    Restarted P K rows s s' -> ResetOf (ps_lower P) (ps_upper P) (ps_p P) (ps_d P) K s s'.
  Proof.
    intros (HX & HV & HB & Hf) Hnd HF Hrl Hrows (R1 & R2 & R3 & R4 & R5 & R6 & _ & _).
    assert (Hat : forall {A} (d : A) rws l i, length rws = length K -> length l = ps_p P -> In i K ->
              exists k, k < length K /\ nth k K 0 = i /\ nth i (upd_many K rws l) d = nth k rws d).
    { intros A d rws l i H1 H2 Hi. apply (In_nth _ _ 0) in Hi. destruct Hi as (k & Hk & <-).
      exists k. split; [lia|]. split; [reflexivity|]. apply upd_many_at; auto.
      eapply Forall_impl; [|exact HF]. cbn. intros; lia. }
    constructor.
    - split; [exact Hnd|exact HF].
    - intros i Hi. rewrite R2. destruct (Hat _ ([] : vec) (repeat (repeat n0 (ps_d P)) (length rows)) (pss_V s) i) as (k & Hk & _ & Hq); auto.
      { rewrite repeat_length. exact Hrl. }
      refine (eq_trans Hq _). rewrite Hrl. apply nth_repeat_in. exact Hk.
    - intros i Hi. rewrite R1. destruct (Hat _ ([] : vec) rows (pss_X s) i) as (k & Hk & _ & Hq); auto.
      unfold matrix, vec in *. rewrite Hq. apply (Forall_nth_lt _ _ [] _ Hrows). vlia.
    - intros i Hi. rewrite R3.
      destruct (Hat _ ([] : vec) (map (fun i => row (pss_X s') i) K) (pss_pbest s) i) as (k & Hk & Hki & Hq); auto.
      { rewrite map_length. reflexivity. }
      refine (eq_trans Hq _).
      rewrite nth_indep with (d' := (fun i => row (pss_X s') i) 0) by (rewrite map_length; vlia).
      rewrite (map_nth (fun i => row (pss_X s') i)), Hki. reflexivity.
    - intros i Hi. rewrite R4. destruct (Hat _ n0 (repeat (nlit 1 30) (length rows)) (pss_pbestfit s) i) as (k & Hk & _ & Hq); auto.
      { rewrite repeat_length. exact Hrl. }
      refine (eq_trans Hq _). rewrite Hrl. apply nth_repeat_in. exact Hk.
    - intros i Hi. rewrite R1, R2, R3, R4, !upd_many_nth_other by exact Hi. auto.
    - auto.
    - unfold Swarm. rewrite R1, R2, R3, R4, !upd_many_length. auto.
  Qed.

  (** C17: one restart of any swarm, at any iteration, with any competitivity. *)
  Theorem C17_restart P g it s st s' st' :
    Swarm (ps_p P) s -> 1 <= ps_p P -> RestartLaw (ps_p P) ->
    length (ps_lower P) = ps_d P -> length (ps_upper P) = ps_d P ->
    restart P g it s st = (inl s', st') ->
    tr st' = tr st /\
    (s' = s \/
     exists K nw, ResetOf (ps_lower P) (ps_upper P) (ps_p P) (ps_d P) K s s' /\
       length K = nw /\ 1 <= nw <= ps_p P - 1 /\
       (* the swarm has collapsed on its best position *)
       nltb (ndiv (vmax (map (fun x => vnorm (vsub x (pss_gbest s))) (pss_X s))) (nsqrt (nmul (nZ 4) (nN (ps_d P)))))
            (ps_delta P) = true /\
       ntrunc (ndiv (nsub (nN (ps_p P)) n1)
                 (nadd n1 (nexp (nmul (ndiv n1 (nlit 9 (-2)))
                    (nadd (nsub (ndiv (nZ it) (nZ (ps_maxiter P))) g) (nlit 5 (-1))))))) = Some (Z.of_nat nw) /\
       (forall L : OrdLaws num_arith, Forall isnum (pss_pbestfit s) -> Worst (ps_p P) (pss_pbestfit s) K)).
  Proof.
    intros (HX & HV & HB & Hf) Hp HR Hlo Hup Hrun.
    set (Pg := mkPSOParams (ps_w P) (ps_c1 P) (ps_c2 P) (ps_con P) (Some g) (ps_delta P) (ps_p P) (ps_d P)
      (ps_lower P) (ps_upper P) (ps_maxiter P) (ps_xtol P) (ps_ftol P) (ps_mode P) (ps_nout P) (ps_alias P) (ps_list P)).
    pose proof (pso_post_spec Pg (fun x => exists r, draws (ps_d P) r /\ length x = ps_d P /\
      forall j, j < ps_d P -> x@j = nadd (ps_lower P)@j (nmul (nsub (ps_upper P)@j (ps_lower P)@j) r@j))) as H.
    cbn [ps_lower ps_upper ps_d Pg] in H.
    specialize (H ltac:(rewrite <- Hlo; apply quiet_uniform_row_draws; congruence) it s st).
    unfold wp in H. change (pso_post Pg it s st) with (restart P g it s st) in H. rewrite Hrun in H.
    destruct H as [Ht H]. split; [exact Ht|].
    destruct H as [[-> _]|(g' & nw & rows & Hg & Hsw & Hnw & Hpos & Hrl & Hrows & Hres & _)]; [left; reflexivity|].
    right. cbn in Hg. injection Hg as <-. cbn [Pg ps_d ps_delta ps_p ps_maxiter] in *.
    pose proof (HR _ _ _ _ Hnw) as Hle.
    set (n := Z.to_nat nw) in *.
    destruct (worst_facts (pss_pbestfit s) n ltac:(lia)) as (_ & Hnd & Hlen & HF).
    set (K := worst (pss_pbestfit s) n) in *. exists K, n.
    split; [|split; [exact Hlen|split; [lia|split; [exact Hsw|split; [replace (Z.of_nat n) with nw by (unfold n; lia); exact Hnw|]]]]].
    2: { intros L Hnum. rewrite <- Hf. apply worst_Worst; auto. lia. }
    rewrite Hf in HF. apply (Restarted_ResetOf P K rows s s'); auto; [repeat split; auto|rewrite Hlen; exact Hrl].
  Qed.
End Restart.

(** ** Binary64.  The only fact about the C library: exp is never negative. *)
Section Restart64.
  Variable F : FloatFuns.
  Hypothesis HF : ExpOK F.
  Context (E : Env (FNum F)) (HE : @EnvOK (FNum F) E).

  Lemma below64 (c : @PopCall (FNum F)) (t : list (@event (FArith F))) :
    (2 <= a_popsize (pop_args c) <= 2 ^ 53)%Z ->
    (pop_comp c = true -> forall (x : list float) (y : float), In (x, y) (evals t) -> PrimFloat.leb y y = true -> PrimFloat.ltb y (f_lit 1 30) = true) ->
    BelowMarker c t.
  Proof.
    intros Hp Hb Hc. split; [apply FNum_RestartLaw; [exact HF|lia|lia]|]. split; [reflexivity|]. exact (Hb Hc).
  Qed.

  (** The best solution of any run of de, cpso, pso and na with serial or joblib evaluation; for
      cpso with competition the values have to be below 1e30. *)
  Theorem C05_binary64 (c : @PopCall (FNum F)) w a0 res st' :
    not_mpi c -> exec (pop_run c) w a0 = (inl res, st') -> (a_popsize (pop_args c) <= 2 ^ 53)%Z ->
    (forall z : list float * float, In z (firstn (Z.to_nat (a_popsize (pop_args c))) (evals (tr st'))) -> PrimFloat.leb (snd z) (snd z) = true) ->
    (pop_comp c = true -> forall (x : list float) (y : float), In (x, y) (evals (tr st')) -> PrimFloat.leb y y = true -> PrimFloat.ltb y (f_lit 1 30) = true) ->
    In (r_x res, r_fun res) (evals (tr st')) /\
    forall (x : list float) (y : float), In (x, y) (evals (tr st')) -> PrimFloat.leb y y = true -> PrimFloat.leb (r_fun res) y = true.
  Proof.
    intros Hnm Hx Hp Hi Hb.
    assert (H2 : (2 <= a_popsize (pop_args c))%Z).
    { destruct (pop_run_hist _ _ _ _ _ HE Hx) as (H & HH & _). exact (pao_pop _ (ho_args _ _ HH)). }
    destruct (@C05_best_population (FNum F) E (FOrd F) c w a0 res st' HE Hnm Hx) as (H1 & _ & H3).
    - apply Forall_forall. exact Hi.
    - apply below64; [lia|exact Hb].
    - split; [exact H1|exact H3].
  Qed.

  Theorem C06_binary64 (c : @PopCall (FNum F)) w a0 res st' :
    not_mpi c -> exec (pop_run c) w a0 = (inl res, st') -> (a_popsize (pop_args c) <= 2 ^ 53)%Z ->
    (forall z : list float * float, In z (firstn (Z.to_nat (a_popsize (pop_args c))) (evals (tr st'))) -> PrimFloat.leb (snd z) (snd z) = true) ->
    (pop_comp c = true -> forall (x : list float) (y : float), In (x, y) (evals (tr st')) -> PrimFloat.leb y y = true -> PrimFloat.ltb y (f_lit 1 30) = true) ->
    forall i j Xi si Xj sj, i <= j ->
      nth_error (cbs (tr st')) i = Some (Xi, si) -> nth_error (cbs (tr st')) j = Some (Xj, sj) ->
      PrimFloat.leb (cb_fun sj) (cb_fun si) = true.
  Proof.
    intros Hnm Hx Hp Hi Hb.
    assert (H2 : (2 <= a_popsize (pop_args c))%Z).
    { destruct (pop_run_hist _ _ _ _ _ HE Hx) as (H & HH & _). exact (pao_pop _ (ho_args _ _ HH)). }
    apply (@C06_monotone_population (FNum F) E (FOrd F) c w a0 res st' HE Hnm Hx).
    - apply Forall_forall. exact Hi.
    - apply below64; [lia|exact Hb].
  Qed.

  Theorem C17_binary64 (P : @PSOParams (FNum F)) g it (s : @PSOS (FNum F)) st s' st' :
    Swarm (ps_p P) s -> 1 <= ps_p P -> (Z.of_nat (ps_p P) <= 2 ^ 53)%Z ->
    length (ps_lower P) = ps_d P -> length (ps_upper P) = ps_d P ->
    Forall (fun y : float => PrimFloat.leb y y = true) (pss_pbestfit s) ->
    restart P g it s st = (inl s', st') ->
    s' = s \/ exists K, ResetOf (ps_lower P) (ps_upper P) (ps_p P) (ps_d P) K s s' /\
                        1 <= length K <= ps_p P - 1 /\ Worst (ps_p P) (pss_pbestfit s) K.
  Proof.
    intros HS Hp1 Hp Hlo Hup Hnum Hr.
    destruct (C17_restart HE P g it s st s' st' HS Hp1 (FNum_RestartLaw F _ HF Hp1 Hp) Hlo Hup Hr)
      as [_ [->|(K & nw & H1 & H2 & H3 & _ & _ & H4)]]; [left; reflexivity|right].
    exists K. split; [exact H1|]. rewrite H2. split; [exact H3|]. exact (H4 (FOrd F) Hnum).
  Qed.
End Restart64.

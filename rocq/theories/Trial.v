(** C21: the trial vectors of Differential Evolution. *)
From Verif Require Import Base Num Env Common DE CPSO NA Hoare EvalRules Gen Steps Hist Runs Best
  Inst HistFacts PropPop Laws Safe Feas.

Section Trial.
  Context {N : Num} {E : Env N}.

  Local Notation "v '@' j" := (nth j v n0) (at level 9, no associativity).
  Local Notation row X i := (nth i X ([] : vec)).

  (** ** What a proper trial is *)

  (** A mutant for individual [i] of the population [X] with best solution [b]: the strategy's
      formula, coordinate by coordinate, on distinct individuals other than [i]. *)
  Definition Mutant (strategy : string) (F : T) (d : nat) (X : matrix) (b : vec) (i : nat) (v : vec)
    : Prop :=
    length v = d /\
    exists ks, NoDup (i :: ks) /\ Forall (fun k => k < length X) ks /\
      ((strategy = "rand1bin"%string /\ exists k0 k1 k2, ks = [k0; k1; k2] /\
         forall j, j < d -> v@j = nadd (row X k0)@j (nmul F (nsub (row X k1)@j (row X k2)@j))) \/
       (strategy = "rand2bin"%string /\ exists k0 k1 k2 k3 k4, ks = [k0; k1; k2; k3; k4] /\
         forall j, j < d -> v@j = nadd (row X k0)@j
            (nmul F (nsub (nsub (nadd (row X k1)@j (row X k2)@j) (row X k3)@j) (row X k4)@j))) \/
       (strategy = "best1bin"%string /\ exists k0 k1, ks = [k0; k1] /\
         forall j, j < d -> v@j = nadd b@j (nmul F (nsub (row X k0)@j (row X k1)@j))) \/
       (strategy = "best2bin"%string /\ exists k0 k1 k2 k3, ks = [k0; k1; k2; k3] /\
         forall j, j < d -> v@j = nadd b@j
            (nmul F (nsub (nsub (nadd (row X k0)@j (row X k1)@j) (row X k2)@j) (row X k3)@j)))).

  (** Binomial crossover of the mutant [v] with the individual [x]: one coordinate always comes
      from the mutant, every other one if its draw is at most CR. *)
  Definition Crossed (CR : T) (d : nat) (v x w : vec) : Prop :=
    length w = d /\
    exists jr r, jr < d /\ draws d r /\
      forall j, j < d -> w@j = if (j =? jr)%nat || nleb r@j CR then v@j else x@j.

  (** constraints="Random": every coordinate outside its bounds is drawn again. *)
  Definition Repaired (con : option string) (rows : matrix) (w u : vec) : Prop :=
    match con with
    | None => u = w
    | Some _ => length u = length w /\ forall j, j < length w ->
        let lo := (row rows j)@0 in let hi := (row rows j)@1 in
        if nltb w@j lo || nltb hi w@j
        then exists r, isrand r /\ u@j = nadd lo (nmul (nsub hi lo) r)
        else u@j = w@j
    end.

  Definition Trial (A : DEArgs) (rows : matrix) (X : matrix) (b : vec) (i : nat) (u : vec) : Prop :=
    let d := length rows in
    exists v w, Mutant (dea_strategy A) (dea_mutation A) d X b i v /\
      Crossed (dea_recombination A) d v (row X i) w /\
      Repaired (a_constraints (dea A)) rows w u.

  (** The evolution of a population: individuals [X] with values [f], best solution [b] of value
      [bf], after the evaluations [l].  [Tr X b i u]: u may be tried for individual i. *)
  Inductive Evolution (p : nat) (deferred serial : bool) (Init : vec -> Prop)
      (Tr : matrix -> vec -> nat -> vec -> Prop)
    : matrix -> vec -> vec -> T -> list (vec * T) -> Prop :=
  | Ev_start X f k l :
      length X = p -> length f = p -> Forall Init X ->
      Permutation l (combine X f) -> (serial = true -> l = combine X f) ->
      k < p -> Evolution p deferred serial Init Tr X f (row X k) f@k l
  | Ev_generation X f b bf l U y X' f' k l' :
      deferred = true ->
      Evolution p deferred serial Init Tr X f b bf l ->
      (* one trial for each individual, made from the same population *)
      length U = p -> length y = p -> (forall i, i < p -> Tr X b i (row U i)) ->
      Permutation l' (combine U y) -> (serial = true -> l' = combine U y) ->
      (* an individual is replaced by a trial that is better *)
      length X' = p -> length f' = p ->
      (forall i, i < p -> row X' i = if nltb y@i f@i then row U i else row X i) ->
      (forall i, i < p -> f'@i = if nltb y@i f@i then y@i else f@i) ->
      k < p -> Evolution p deferred serial Init Tr X' f' (row X' k) f'@k (l ++ l')
  | Ev_one X f b bf l i u y X' f' b' bf' :
      deferred = false ->
      Evolution p deferred serial Init Tr X f b bf l ->
      (* the individuals in turn *)
      i = length l mod p -> Tr X b i u ->
      (* replaced by a trial that is not worse *)
      (if nleb y f@i then X' = upd i u X /\ f' = upd i y f else X' = X /\ f' = f) ->
      (if nleb y f@i && nleb y bf then b' = u /\ bf' = y else b' = b /\ bf' = bf) ->
      Evolution p deferred serial Init Tr X' f' b' bf' (l ++ [(u, y)]).

  (** ** Proofs *)
  Context (HE : EnvOK).

  Lemma vadd_at (u v : vec) d j : length u = d -> length v = d -> j < d -> (vadd u v)@j = nadd u@j v@j.
  Proof. intros. unfold vadd. apply map2_nth; vlia. Qed.
  Lemma vsub_at (u v : vec) d j : length u = d -> length v = d -> j < d -> (vsub u v)@j = nsub u@j v@j.
  Proof. intros. unfold vsub. apply map2_nth; vlia. Qed.
  Lemma vscale_at a (v : vec) d j : length v = d -> j < d -> (vscale a v)@j = nmul a v@j.
  Proof.
    intros Hl Hj. unfold vscale. rewrite nth_indep with (d' := nmul a n0) by (rewrite map_length; vlia).
    apply (map_nth (nmul a)).
  Qed.

  Lemma NoDup_del i : forall l : list nat, NoDup l -> NoDup (del i l).
  Proof.
    induction i as [|i IH]; intros [|a l] H; cbn; auto; inversion H; subst; auto.
    constructor; [intros Hin; apply del_In in Hin; auto|auto].
  Qed.
  Lemma del_not_in i : forall l : list nat, NoDup l -> i < length l -> ~ In (nth i l 0) (del i l).
  Proof.
    induction i as [|i IH]; intros [|a l] H Hi; cbn in *; try lia; inversion H; subst; auto.
    intros [->|Hin]; [|apply (IH l); auto; lia]. apply H2, nth_In. lia.
  Qed.

  Lemma quiet_shuffle p i : i < p ->
    quiet (delete_shuffle p i) (fun is => NoDup (i :: is) /\ Forall (fun k => k < p) is /\ length is = p - 1).
  Proof.
    intros Hi. unfold delete_shuffle.
    eapply (quiet_bind _ _ (fun pi => Permutation pi (seq 0 (p - 1)))).
    { apply quiet_draw. intros r. apply (eo_perm HE). }
    intros pi Hpi. apply quiet_ret.
    set (D := del i (seq 0 p)).
    assert (HD : length D = p - 1) by (unfold D; rewrite del_length; rewrite seq_length; lia).
    assert (HN : NoDup D) by apply NoDup_del, seq_NoDup.
    assert (HP : Permutation (map (fun k => nth k D 0) pi) D).
    { rewrite Hpi, <- HD. clear. induction D as [|a D IH]; cbn; [constructor|].
      constructor. rewrite <- seq_shift, map_map. exact IH. }
    split; [|split].
    - constructor.
      + intros Hin. apply (Permutation_in _ HP) in Hin.
        pose proof (del_not_in i (seq 0 p) (seq_NoDup p 0)) as H. rewrite seq_length, nth_seq0 in H by lia.
        exact (H Hi Hin).
      + apply (Permutation_NoDup (Permutation_sym HP)), HN.
    - apply Forall_forall. intros k Hk. apply (Permutation_in _ HP) in Hk. apply (del_lt _ _ _ Hk).
    - rewrite map_length, (Permutation_length Hpi), seq_length. reflexivity.
  Qed.

  Lemma NoDup_firstn {A} n : forall l : list A, NoDup l -> NoDup (firstn n l).
  Proof.
    induction n; intros [|a l] H; cbn; try constructor; inversion H; subst; auto.
    intros Hin. apply H2. rewrite <- (firstn_skipn n). apply in_or_app; auto.
  Qed.

  Definition strat_name (s : Strat) : string :=
    match s with Rand1bin => "rand1bin" | Rand2bin => "rand2bin" | Best1bin => "best1bin" | Best2bin => "best2bin" end.
  Lemma strategy_name s st : strategy_map s = Some st -> s = strat_name st.
  Proof.
    unfold strategy_map.
    repeat match goal with |- context [String.eqb s ?k] => destruct (String.eqb s k) eqn:?H end;
      intros H'; try discriminate; injection H' as <-; apply String.eqb_eq; assumption.
  Qed.

  Lemma mutate_Mutant st is F (X : matrix) b d i v :
    NoDup (i :: is) -> Forall (fun k => k < length X) is ->
    Forall (Len d) X -> Len d b -> mutate st is F X b = Some v -> Mutant (strat_name st) F d X b i v.
  Proof.
    intros HN HL HX Hb Hm. split; [exact (mutate_len _ _ _ _ _ _ _ HL HX Hb Hm)|].
    assert (HR : forall k, k < length X -> length (row X k) = d).
    { intros k Hk. apply (Forall_nth_lt _ X [] k HX Hk). }
    assert (HF : forall n, NoDup (i :: firstn n is) /\ Forall (fun k => k < length X) (firstn n is)).
    { intros n. inversion HN; subst. split.
      - constructor; [|apply NoDup_firstn; assumption]. intros Hin. apply H1.
        rewrite <- (firstn_skipn n). apply in_or_app; auto.
      - rewrite <- (firstn_skipn n) in HL. apply Forall_app in HL. tauto. }
    unfold mutate, pick in Hm. unfold strat_name.
    destruct st; repeat match type of Hm with context [nth_error is ?k] =>
      destruct (nth_error is k) eqn:?K; [|discriminate] end; injection Hm as <-.
    - destruct is as [|k0 [|k1 [|k2 is]]]; try discriminate. destruct (HF 3) as [H1 H2].
      cbn in *. exists [k0; k1; k2]. split; [exact H1|]. split; [exact H2|]. left. split; [reflexivity|].
      exists k0, k1, k2. split; [reflexivity|]. intros j Hj.
      injection K as <-; injection K0 as <-; injection K1 as <-.
      inversion H2 as [|? ? G0 H3]; subst. inversion H3 as [|? ? G1 H4]; subst. inversion H4 as [|? ? G2 _]; subst.
      unfold Len in Hb. rewrite (vadd_at _ _ d), (vscale_at _ _ d), (vsub_at _ _ d); auto 10 using vsub_len, vscale_len, vadd_len.
    - destruct is as [|k0 [|k1 [|k2 [|k3 [|k4 is]]]]]; try discriminate. destruct (HF 5) as [H1 H2].
      cbn in *. exists [k0; k1; k2; k3; k4]. split; [exact H1|]. split; [exact H2|]. right; left. split; [reflexivity|].
      exists k0, k1, k2, k3, k4. split; [reflexivity|]. intros j Hj.
      injection K as <-; injection K0 as <-; injection K1 as <-; injection K2 as <-; injection K3 as <-.
      inversion H2 as [|? ? G0 H3]; subst. inversion H3 as [|? ? G1 H4]; subst. inversion H4 as [|? ? G2 H5]; subst.
      inversion H5 as [|? ? G3 H6]; subst. inversion H6 as [|? ? G4 _]; subst.
      unfold Len in Hb. rewrite (vadd_at _ _ d), (vscale_at _ _ d), (vsub_at _ _ d), (vsub_at _ _ d), (vadd_at _ _ d);
        auto 10 using vsub_len, vscale_len, vadd_len.
    - destruct is as [|k0 [|k1 is]]; try discriminate. destruct (HF 2) as [H1 H2].
      cbn in *. exists [k0; k1]. split; [exact H1|]. split; [exact H2|]. right; right; left. split; [reflexivity|].
      exists k0, k1. split; [reflexivity|]. intros j Hj.
      injection K as <-; injection K0 as <-.
      inversion H2 as [|? ? G0 H3]; subst. inversion H3 as [|? ? G1 _]; subst.
      unfold Len in Hb. rewrite (vadd_at _ _ d), (vscale_at _ _ d), (vsub_at _ _ d); auto 10 using vsub_len, vscale_len, vadd_len.
    - destruct is as [|k0 [|k1 [|k2 [|k3 is]]]]; try discriminate. destruct (HF 4) as [H1 H2].
      cbn in *. exists [k0; k1; k2; k3]. split; [exact H1|]. split; [exact H2|]. right; right; right. split; [reflexivity|].
      exists k0, k1, k2, k3. split; [reflexivity|]. intros j Hj.
      injection K as <-; injection K0 as <-; injection K1 as <-; injection K2 as <-.
      inversion H2 as [|? ? G0 H3]; subst. inversion H3 as [|? ? G1 H4]; subst. inversion H4 as [|? ? G2 H5]; subst.
      inversion H5 as [|? ? G3 _]; subst.
      unfold Len in Hb. rewrite (vadd_at _ _ d), (vscale_at _ _ d), (vsub_at _ _ d), (vsub_at _ _ d), (vadd_at _ _ d);
        auto 10 using vsub_len, vscale_len, vadd_len.
  Qed.

  Lemma crossover_Crossed CR d jr (r v x : vec) : jr < d -> draws d r -> length v = d -> length x = d ->
    Crossed CR d v x (crossover CR jr r v x).
  Proof.
    intros Hj Hr Hv Hx. split; [apply crossover_len; auto; apply Hr|].
    exists jr, r. split; [exact Hj|]. split; [exact Hr|]. destruct Hr as [Hr _]. intros j Hjd.
    unfold crossover. rewrite map3_nth with (a := (0, n0)) (b := n0) (c := n0)
      by (rewrite ?combine_length, ?seq_length; vlia).
    rewrite combine_nth by (rewrite seq_length; reflexivity). cbn [fst snd].
    rewrite nth_seq0 by vlia. reflexivity.
  Qed.

  Lemma Repaired_len con rows w u : Repaired con rows w u -> length u = length w.
  Proof. destruct con; cbn; [tauto|congruence]. Qed.

  Lemma quiet_repair con c rows (w : vec) : de_cons_map con = Some c -> length w = length rows ->
    quiet (de_cons c (lows rows) (ups rows) w) (Repaired con rows w).
  Proof.
    intros Hc Hw. destruct con as [s|]; cbn in Hc.
    2: { injection Hc as <-. apply quiet_ret. reflexivity. }
    destruct (String.eqb s "Random"); [injection Hc as <-|discriminate]. cbn.
    eapply quiet_bind.
    { unfold uniform_vec, uniform_row. eapply quiet_bind; [apply quiet_urange|]. intros _ _.
      apply (quiet_mapM _ _ (fun b x => exists r, isrand r /\ x = nadd (fst b) (nmul (nsub (snd b) (fst b)) r))).
      intros [lo hi] _. unfold uniform. eapply quiet_bind; [apply quiet_rand'|]. intros r Hr. apply quiet_ret. exists r. auto. }
    intros y Hy. apply quiet_ret.
    pose proof (Forall2_length _ _ _ Hy) as Hl. rewrite combine_length, lows_len, ups_len, Nat.min_id in Hl.
    assert (HL : length (map3 (fun x b r => if nltb x (fst b) || nltb (snd b) x then r else x) w
                          (combine (lows rows) (ups rows)) y) = length w).
    { rewrite map3_length, combine_length, lows_len, ups_len. vlia. }
    split; [exact HL|]. intros j Hj.
    rewrite map3_nth with (a := n0) (b := (n0, n0)) (c := n0)
      by (rewrite ?combine_length, ?lows_len, ?ups_len; vlia).
    rewrite combine_nth by (rewrite lows_len, ups_len; reflexivity). cbn [fst snd].
    assert (Hlo : (lows rows)@j = (row rows j)@0).
    { unfold lows. rewrite nth_indep with (d' := (fun r : vec => nth 0 r n0) []) by (rewrite map_length; vlia).
      apply (map_nth (fun r : vec => nth 0 r n0)). }
    assert (Hup : (ups rows)@j = (row rows j)@1).
    { unfold ups. rewrite nth_indep with (d' := (fun r : vec => nth 1 r n0) []) by (rewrite map_length; vlia).
      apply (map_nth (fun r : vec => nth 1 r n0)). }
    rewrite Hlo, Hup. destruct (_ || _)%bool; [|reflexivity].
    assert (HF : exists r, isrand r /\ y@j = nadd (fst (nth j (combine (lows rows) (ups rows)) (n0, n0)))
       (nmul (nsub (snd (nth j (combine (lows rows) (ups rows)) (n0, n0))) (fst (nth j (combine (lows rows) (ups rows)) (n0, n0)))) r)).
    { assert (Hj' : j < length (combine (lows rows) (ups rows)))
        by (rewrite combine_length, lows_len, ups_len; vlia).
      clear - Hy Hj'. revert j Hj'. induction Hy as [|b v bs vs Hb Hy IH]; intros [|j] Hj; cbn in *; try lia; [exact Hb|].
      apply IH. lia. }
    rewrite combine_nth in HF by (rewrite lows_len, ups_len; reflexivity). cbn [fst snd] in HF.
    rewrite Hlo, Hup in HF. exact HF.
  Qed.

  Lemma Forall2_nth_lt {X Y} (R : X -> Y -> Prop) l1 l2 a b i :
    Forall2 R l1 l2 -> i < length l1 -> R (nth i l1 a) (nth i l2 b).
  Proof. intros H; revert i; induction H; intros [|i] Hi; cbn in *; try lia; auto. apply IHForall2; lia. Qed.

  Lemma quiet_below n : quiet (np_randint n) (fun j => j < n).
  Proof.
    destruct n; cbn [np_randint]; [apply quiet_raise; discriminate|].
    apply quiet_draw. intros r. apply (eo_randint HE). lia.
  Qed.

  Lemma Mutant_len s F d X b i v : Mutant s F d X b i v -> length v = d.
  Proof. intros [H _]; exact H. Qed.

  Section Good.
    Context (A : DEArgs) (rows : matrix) (P : DEParams) (sync : bool).
    Context (Hb : a_bounds (dea A) = D2 2 rows) (HP : DEParamsOf A sync P).

    Lemma P_d : de_d P = length rows.
    Proof. rewrite (dpo_d _ _ _ HP), Hb. reflexivity. Qed.
    Lemma P_bounds : de_lower P = lows rows /\ de_upper P = ups rows.
    Proof.
      destruct (dpo_bounds _ _ _ HP) as (rows' & Hr & H1 & H2). rewrite Hb in Hr. injection Hr as <-. auto.
    Qed.

    Lemma Trial_len X b i u : Trial A rows X b i u -> length u = length rows.
    Proof. intros (v & w & _ & [Hw _] & Hr). apply Repaired_len in Hr. congruence. Qed.

    (** one trial *)
    Lemma quiet_trial X b i is r : length X = de_p P -> Forall (Len (length rows)) X -> Len (length rows) b ->
      i < de_p P -> draws (length rows) r ->
      NoDup (i :: is) -> Forall (fun k => k < de_p P) is ->
      quiet (V <- orelse (mutate (de_strat P) is (de_F P) X b) IndexError ;;
             ir <- np_randint (de_d P) ;;
             de_cons (de_con P) (de_lower P) (de_upper P) (crossover (de_CR P) ir r V (nth i X [])))
            (fun u => Len (length rows) u /\ Trial A rows X b i u).
    Proof.
      intros HX HXl Hbl Hi Hr HN HL.
      eapply (quiet_bind _ _ (fun V => Mutant (dea_strategy A) (dea_mutation A) (length rows) X b i V)).
      { apply quiet_orelse; [|discriminate|discriminate]. intros V HV.
        rewrite (strategy_name _ _ (dpo_strat _ _ _ HP)), <- (dpo_F _ _ _ HP).
        apply (mutate_Mutant _ is); auto. rewrite HX. exact HL. }
      intros V HV. rewrite P_d. eapply quiet_bind; [apply quiet_below|]. intros jr Hj. cbn beta in Hj.
      destruct P_bounds as [-> ->].
      assert (HC : Crossed (dea_recombination A) (length rows) V (row X i) (crossover (de_CR P) jr r V (row X i))).
      { rewrite <- (dpo_CR _ _ _ HP). apply crossover_Crossed; auto.
        - apply (Mutant_len _ _ _ _ _ _ _ HV).
        - apply (Forall_nth_lt _ X [] i HXl). vlia. }
      eapply quiet_conseq; [apply (quiet_repair (a_constraints (dea A)) _ _ _ (dpo_con _ _ _ HP)); apply HC|].
      intros u Hu. assert (HT : Trial A rows X b i u) by (exists V, (crossover (de_CR P) jr r V (row X i)); auto).
      split; [apply (Trial_len _ _ _ _ HT)|exact HT].
    Qed.

    Lemma quiet_cands_trial (r1 X : matrix) b : length r1 = de_p P -> Forall (draws (de_d P)) r1 ->
      length X = de_p P -> Forall (Len (length rows)) X -> Len (length rows) b ->
      quiet (de_cands P r1 X b) (fun U => length U = de_p P /\ Forall (Len (length rows)) U /\
        forall i, i < de_p P -> Trial A rows X b i (nth i U [])).
    Proof.
      intros Hr Hrd HX HXl Hbl. unfold de_cands. rewrite P_d in *.
      eapply quiet_bind.
      { apply (quiet_mapM _ _ (fun i is => NoDup (i :: is) /\ Forall (fun k => k < de_p P) is)).
        intros i Hi. apply in_seq in Hi. eapply quiet_conseq; [apply quiet_shuffle; lia|]. intros is (H1 & H2 & _); auto. }
      intros iss Hi. pose proof (Forall2_length _ _ _ Hi) as HiL. rewrite seq_length in HiL.
      assert (Hi' : forall i, i < de_p P -> NoDup (i :: nth i iss []) /\ Forall (fun k => k < de_p P) (nth i iss [])).
      { intros i Hlt. pose proof (Forall2_nth_lt _ _ _ 0 ([] : list nat) i Hi) as H. rewrite seq_length, nth_seq0 in H by lia.
        apply H. lia. }
      eapply quiet_bind.
      { apply (quiet_mapM _ _ (fun is V => mutate (de_strat P) is (de_F P) X b = Some V)).
        intros is _. apply quiet_orelse; [auto|discriminate|discriminate]. }
      intros V HV. pose proof (Forall2_length _ _ _ HV) as HVL.
      assert (HV' : forall i, i < de_p P -> Mutant (dea_strategy A) (dea_mutation A) (length rows) X b i (nth i V [])).
      { intros i Hlt. destruct (Hi' i Hlt) as [H1 H2].
        rewrite (strategy_name _ _ (dpo_strat _ _ _ HP)), <- (dpo_F _ _ _ HP).
        apply (mutate_Mutant _ (nth i iss [])); auto; [rewrite HX; exact H2|].
        apply (Forall2_nth_lt _ _ _ ([] : list nat) ([] : vec) i HV). lia. }
      eapply quiet_bind; [apply quiet_replicateM, quiet_below|]. intros ir [Hir Hirb].
      destruct P_bounds as [-> ->].
      set (W := map3 _ ir (combine r1 V) X).
      assert (HW : length W = de_p P) by (unfold W; rewrite map3_length, combine_length; vlia).
      assert (HW' : forall i, i < de_p P -> Crossed (dea_recombination A) (length rows) (nth i V []) (row X i) (nth i W [])).
      { intros i Hlt. unfold W.
        rewrite map3_nth with (a := 0) (b := (([] : vec), ([] : vec))) (c := ([] : vec)) by (rewrite ?combine_length; vlia).
        rewrite combine_nth by vlia. cbn [fst snd]. rewrite <- (dpo_CR _ _ _ HP). apply crossover_Crossed.
        - apply (Forall_nth_lt _ ir 0 i Hirb). vlia.
        - apply (Forall_nth_lt _ r1 [] i Hrd). vlia.
        - apply (Mutant_len _ _ _ _ _ _ _ (HV' i Hlt)).
        - apply (Forall_nth_lt _ X [] i HXl). vlia. }
      clearbody W.
      eapply quiet_conseq.
      { apply (quiet_mapM _ _ (fun w u => Repaired (a_constraints (dea A)) rows w u)). intros w Hw.
        apply quiet_repair; [apply (dpo_con _ _ _ HP)|].
        apply (In_nth _ _ ([] : vec)) in Hw. destruct Hw as (i & Hi1 & <-). apply HW'. vlia. }
      intros U HU. pose proof (Forall2_length _ _ _ HU) as HUL.
      assert (HT : forall i, i < de_p P -> Trial A rows X b i (nth i U [])).
      { intros i Hlt. exists (nth i V []), (nth i W []). split; [apply HV', Hlt|]. split; [apply HW', Hlt|].
        apply (Forall2_nth_lt _ _ _ ([] : vec) ([] : vec) i HU). lia. }
      split; [lia|]. split; [|exact HT].
      apply (Forall_nth' _ _ ([] : vec)). intros i Hlt.
      apply (Trial_len X b i), HT. vlia.
    Qed.

    Lemma DEGood_trial : DEGood P (Len (length rows)) (Len (length rows)) (fun i X b u => Trial A rows X b i u).
    Proof.
      constructor.
      - auto.
      - intros _ n U. apply (BcastKeeps_len _ (eo_mpi HE)).
      - intros; apply quiet_cands_trial; auto.
      - intros r1 i X gb Hi Hr HX HXl Hg. unfold de_cand1.
        eapply quiet_bind; [apply quiet_shuffle, Hi|]. intros is (H1 & H2 & _).
        rewrite P_d in Hr. apply quiet_trial; auto.
    Qed.
  End Good.

  (** ** From the history *)
  Definition one_worker (workers : Z) : bool := Z.eqb workers 0 || Z.eqb workers 1.

  Lemma one_worker_serial sync w b m : eval_kind sync w b = inl m -> m <> Mpi -> one_worker w = true -> m = Serial.
  Proof.
    unfold eval_kind, wrapper_kind, one_worker. intros H Hm Hw. rewrite Hw in H. cbn [negb] in H.
    rewrite andb_false_r in H. destruct sync; [|congruence].
    set (bb := match b with Some b => if String.eqb b "" then "threading"%string else b | None => "threading"%string end) in *.
    destruct (String.eqb bb "mpi") eqn:Hb; [|congruence].
    apply String.eqb_eq in Hb. rewrite Hb in H. cbn in H. congruence.
  Qed.

  Lemma evals_map_ok l : evals (map ok l) = l.
  Proof. apply evals_ok. Qed.

  Section FromHist.
    Context (P : DEParams) (sync cb : bool) (C0 C : vec -> Prop) (TR : nat -> matrix -> vec -> vec -> Prop).
    Context (Hp : 2 <= de_p P) (HM : de_mode P <> Mpi) (serial : bool) (HS : serial = true -> de_mode P = Serial).
    Context (Hasync : sync = false -> de_mode P = Serial).
    Let Hh := de_H P sync cb C0 C TR.
    Let Ev := Evolution (de_p P) sync serial C0 (fun X b i u => TR i X b u).

    Lemma cbe_evals it q r pop : evals (cbe Hh it q r pop) = [].
    Proof. unfold cbe. destruct (h_cb Hh); reflexivity. Qed.

    Lemma asyncs_firstn l : forall i st q, i < length l -> forall d,
      asyncs (de_xtol P) (de_ftol P) 0 (firstn (S i) l) q st =
      async1 (de_xtol P) (de_ftol P) i (fst (nth i l d)) (snd (nth i l d))
             (fst (asyncs (de_xtol P) (de_ftol P) 0 (firstn i l) q st)).
    Proof.
      intros i st q Hi d.
      assert (Hf : firstn (S i) l = firstn i l ++ [nth i l d]).
      { clear - Hi. revert i Hi. induction l as [|a l IH]; intros [|i] Hi; cbn in *; try lia; auto.
        f_equal. apply IH. lia. }
      rewrite Hf, asyncs_app, firstn_length, Nat.min_l by lia. cbn [Nat.add].
      destruct (nth i l d) as [c f]. cbn [asyncs fst snd]. cbn zeta.
      destruct (async1 _ _ _ _ _ _); reflexivity.
    Qed.

    Lemma Hist_Evolution it q r st pop t : Hist Hh it q r st pop t ->
      Ev (qx q) (qf q) (qb q) (qbf q) (evals t) /\ length (evals t) = Z.to_nat it * de_p P /\
      (1 <= it)%Z /\ QLen (de_p P) q.
    Proof.
      induction 1 as [X X' f evs r HX HX' Hf Hc Hs Hev HC0 Hr Xk HXk HXX q
                     |it q r pop t q1 q' st evs cand cf r' Hh0 IH HB HG HC Hr].
      - cbn in Hev. destruct (Hev HM) as (-> & l & -> & Hl & Hser).
        assert (Xk = X) as -> by (destruct HXX; auto). unfold q. cbn [qx qf qb qbf].
        rewrite evals_app, evals_ok, cbe_evals, app_nil_r, map_id in *.
        cbn in HX, Hf, HC0. split; [|split; [|split]].
        + apply Ev_start; auto.
          rewrite <- Hf. apply argmin_lt. intros Hn. rewrite Hn in Hf. cbn in Hf. lia.
        + rewrite (Permutation_length Hl), combine_length. change (Z.to_nat 1) with 1. vlia.
        + lia.
        + split; auto.
      - destruct IH as (IH & HL & Hit & HQ). cbn in HB. subst q1.
        destruct HG as [G1 G2 G3 G4 G5 G6]. cbn in G1, G2, G5, G6.
        destruct (G5 HM) as (l & -> & Hl & Hser). rewrite map_id in *.
        rewrite !evals_app, evals_ok, cbe_evals, app_nil_r.
        assert (Hll : length l = de_p P) by (rewrite (Permutation_length Hl), combine_length; vlia).
        destruct HC as [_ HT]. specialize (HT HM).
        assert (HQ' : QLen (de_p P) q').
        { replace q' with (fst (gen_next sync (it + 1) (de_maxiter P) (de_xtol P) (de_ftol P) cand cf q))
            by (rewrite G6; reflexivity). apply gen_next_len; auto. }
        split; [|split; [|split; [lia|exact HQ']]].
        2: { rewrite app_length, HL, Hll. replace (Z.to_nat (it + 1)) with (S (Z.to_nat it)) by lia. cbn. lia. }
        destruct sync eqn:Hsy; cbn [gen_next] in G6.
        + unfold sync_next in G6. injection G6 as Hq _. subst q'. cbn [qx qf qb qbf sync_sel ss_x ss_xfun ss_best ss_bestfun].
          destruct HQ as [HQ1 HQ2].
          assert (Hsx : length (sel_x cand cf (qx q) (qf q)) = de_p P) by (apply Gen.sel_x_length; auto).
          assert (Hsf : length (sel_fun cf (qf q)) = de_p P) by (apply sel_fun_length; auto).
          apply (Ev_generation _ _ _ _ _ (qx q) (qf q) (qb q) (qbf q) (evals t) cand cf); auto.
          * intros i Hi. unfold sel_x.
            rewrite map2_nth with (a := (([] : vec), n0)) (b := (([] : vec), n0)) by (rewrite combine_length; vlia).
            rewrite !combine_nth by vlia. reflexivity.
          * intros i Hi. unfold sel_fun. rewrite map2_nth with (a := n0) (b := n0) by vlia. reflexivity.
          * rewrite <- Hsf. apply argmin_lt. intros Hn. rewrite Hn in Hsf. cbn in Hsf. lia.
        + injection G6 as Hq _.
          assert (Hm : de_mode P = Serial) by auto.
          rewrite (Hser Hm). set (L := combine cand cf) in *.
          assert (HLl : length L = de_p P) by (unfold L; rewrite combine_length; vlia).
          assert (Hgo : forall i, i <= de_p P ->
             let qi := fst (asyncs (de_xtol P) (de_ftol P) 0 (firstn i L) q None) in
             Ev (qx qi) (qf qi) (qb qi) (qbf qi) (evals t ++ firstn i L)).
          { induction i as [|i IHi]; intros Hi; cbn zeta.
            - cbn. rewrite app_nil_r. exact IH.
            - rewrite (asyncs_firstn L i None q ltac:(lia) (([] : vec), n0)).
              specialize (IHi ltac:(lia)). cbn zeta in IHi. specialize (HT i ltac:(lia)). cbn zeta in HT.
              set (qi := fst (asyncs (de_xtol P) (de_ftol P) 0 (firstn i L) q None)) in *.
              assert (HQi : QLen (de_p P) qi) by (apply asyncs_len; exact HQ).
              assert (Hf : firstn (S i) L = firstn i L ++ [nth i L (([] : vec), n0)]).
              { clear - Hi HLl. assert (Hi' : i < length L) by lia. clear Hi HLl. revert i Hi'.
                induction L as [|a L IH]; intros [|i] Hi; cbn in *; try lia; auto. f_equal. apply IH. lia. }
              rewrite Hf, app_assoc.
              assert (Hn : nth i L (([] : vec), n0) = (nth i cand [], nth i cf n0)) by (unfold L; apply combine_nth; vlia).
              rewrite Hn. cbn [fst snd].
              apply (Ev_one _ _ _ _ _ (qx qi) (qf qi) (qb qi) (qbf qi) _ i); [reflexivity|exact IHi| | | |].
              + rewrite app_length, HL, firstn_length, HLl, Nat.min_l by lia.
                rewrite Nat.add_comm, Nat.mod_add, Nat.mod_small by lia. reflexivity.
              + cbn beta. exact HT.
              + unfold async1, async_sel. destruct (nleb _ _); [destruct (nleb _ _)|]; cbn; auto.
              + unfold async1, async_sel. destruct (nleb (nth i cf n0) (nth i (qf qi) n0)); cbn [andb]; [destruct (nleb _ _)|]; cbn; auto. }
          specialize (Hgo (de_p P) (le_n _)). cbn zeta in Hgo. rewrite firstn_all2 in Hgo by lia.
          rewrite Hq in Hgo. exact Hgo.
    Qed.
  End FromHist.

  Lemma de_mode_not_mpi sync w b m : eval_kind sync w b = inl m -> b <> Some "mpi"%string -> m <> Mpi.
  Proof.
    unfold eval_kind, wrapper_kind. intros H Hb ->.
    set (bb := match b with Some b => if String.eqb b "" then "threading"%string else b | None => "threading"%string end) in *.
    assert (Hm : bb = "mpi"%string).
    { destruct (in_prefer bb && _); destruct sync; try discriminate.
      - destruct (in_prefer bb); [discriminate|].
        destruct (String.eqb bb "mpi") eqn:Hq; [apply String.eqb_eq, Hq|discriminate].
      - destruct (String.eqb bb "mpi") eqn:Hq; [apply String.eqb_eq, Hq|discriminate]. }
    unfold bb in Hm. destruct b as [b0|]; [|discriminate]. destruct (String.eqb b0 ""); [discriminate|congruence].
  Qed.

  (** ** C21 *)

  (** A run of de that returns evaluated an initial population and then only proper trials: in
      deferred mode one for each individual of the population before the generation, in immediate
      mode one for each individual in turn, of the population at that moment.  A trial replaces its
      individual exactly if it is better (deferred) or not worse (immediate), and nothing else
      changes the population; the result is its best solution. *)
  Theorem C21_trials A rows w a0 res st' :
    a_bounds (dea A) = D2 2 rows ->
    (forall x, a_x0 (dea A) = Some x -> nd_wf x) ->
    a_backend (dea A) <> Some "mpi"%string ->
    exec (de_minimize A) w a0 = (inl res, st') ->
    exists X f,
      Evolution (Z.to_nat (a_popsize (dea A))) (is_sync (dea_updating A) (dea A))
                (one_worker (a_workers (dea A))) (Len (length rows)) (Trial A rows)
                X f (r_x res) (r_fun res) (evals (tr st')).
  Proof.
    intros Hb Hwf Hmpi Hx.
    assert (HPA : PopArgsOK (dea A)).
    { unfold exec, de_minimize in Hx. pose proof (wp_check_pop (dea A) (fun _ _ => PopArgsOK (dea A)) (mkSt w [] a0) (fun H => H)) as H.
      unfold wp in H. unfold bind at 1 in Hx. destruct (check_pop (dea A) (mkSt w [] a0)) as [[[]|e] s]; [exact H|discriminate]. }
    assert (Hrun := de_run A (Len (length rows)) (Len (length rows)) (Len (length rows))
                      (fun i X b u => Trial A rows X b i u) w a0).
    cbn zeta in Hrun. specialize (Hrun (fun m _ => EnvOK_mode HE m)).
    specialize (Hrun (fun P HP => DEGood_trial A rows P _ Hb HP)).
    specialize (Hrun (fun u H => H)).
    specialize (Hrun (BcastKeeps_len _ (eo_mpi HE))).
    assert (Hx0 : match a_x0 (dea A) with
      | Some x => Forall (Len (length rows)) (nd_rows x)
      | None => forall rows0, a_bounds (dea A) = D2 2 rows0 ->
          quiet (lhs (Z.to_nat (a_popsize (dea A))) (nd_len (a_bounds (dea A)))
                     (map (fun r => nth 0 r n0) rows0) (map (fun r => nth 1 r n0) rows0))
                (fun X => length X = Z.to_nat (a_popsize (dea A)) /\ Forall (Len (length rows)) X)
      end).
    { destruct (a_x0 (dea A)) as [x|] eqn:Hx0.
      - destruct (pao_x0 _ HPA _ Hx0) as (H1 & H2 & _). specialize (Hwf x eq_refl).
        destruct x as [| |c m]; try discriminate. rewrite Hb in H2. cbn in *. subst c. exact Hwf.
      - intros rows0 Hr0. rewrite Hb in Hr0. injection Hr0 as <-. rewrite Hb. cbn [nd_len].
        apply quiet_lhs. intros y perms Hy HF Hpm. cbn zeta. split; [rewrite !map_length, seq_length; reflexivity|].
        apply Forall_forall. intros z Hz. apply in_map_iff in Hz. destruct Hz as (row & <- & Hrow).
        apply in_map_iff in Hrow. destruct Hrow as (k & <- & _). unfold Len, lhs_scale.
        rewrite map3_length, !map_length, map2_length, seq_length, Hpm. vlia. }
    specialize (Hrun Hx0). pose proof (wp_elim _ _ _ _ _ _ Hrun Hx) as (P & sync & HP & it & q & r & c & m & pop & Hh & _ & _ & ->).
    cbn [r_x r_fun]. exists (qx q), (qf q). rewrite <- (dpo_sync _ _ _ HP).
    replace (Z.to_nat (a_popsize (dea A))) with (de_p P) by (rewrite <- (dpo_p _ _ _ HP), Nat2Z.id; reflexivity).
    assert (HM : de_mode P <> Mpi) by (apply (de_mode_not_mpi _ _ _ _ (dpo_mode _ _ _ HP) Hmpi)).
    apply (Hist_Evolution P sync (has_cb (dea A)) (Len (length rows)) (Len (length rows))
             (fun i X b u => Trial A rows X b i u) (dpo_p2 _ _ _ HP) HM (one_worker (a_workers (dea A)))) in Hh.
    - apply Hh.
    - intros Hw. apply (one_worker_serial _ _ _ _ (dpo_mode _ _ _ HP) HM Hw).
    - intros ->. apply (eval_kind_async _ _ _ _ (dpo_mode _ _ _ HP)). reflexivity.
  Qed.
End Trial.

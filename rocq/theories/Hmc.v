(** The runs of hmc (sample/hmc/_hmc.py) as chains. *)
From Verif Require Import Base Num Env Common DE Sample Hoare EvalRules Steps Best Inst Valid Accept
  Chain Mcmc.

Section Grad.
  Context {N : Num} {E : Env N}.

  (** ** Specification of the numerical gradient, by index.
      The evaluation points for coordinate k: coordinate k is moved by h; the coordinates before k
      have been moved and moved back. *)
  Definition ng_plus (h : T) (x : vec) (k : nat) : vec :=
    map (fun j => if (j =? k)%nat then nadd (nth j x n0) h
                  else if (j <? k)%nat then nsub (nadd (nth j x n0) h) h else nth j x n0)
        (seq 0 (length x)).
  Definition ng_minus (h : T) (x : vec) (k : nat) : vec :=
    map (fun j => if (j =? k)%nat then nsub (nth j x n0) h
                  else if (j <? k)%nat then nadd (nsub (nth j x n0) h) h else nth j x n0)
        (seq 0 (length x)).

  Record GradOf (h : T) (x g : vec) (evs : list event) : Prop := {
    gr_len : length g = length x;
    gr_only : evs = map ok (evals evs);
    gr_count : length (evals evs) = 2 * length x;
    gr_pts : forall k, k < length x -> exists f1 f2,
      nth (2 * k) (evals evs) ([], n0) = (ng_plus h x k, f2) /\
      nth (2 * k + 1) (evals evs) ([], n0) = (ng_minus h x k, f1) /\
      nth k g n0 = ndiv (nmul (nlit 5 (-1)) (nsub f2 f1)) h }.

  (** The two work arrays of the code after i coordinates. *)
  Definition back1 (h : T) (x : vec) (i : nat) : vec :=
    map (fun j => if (j <? i)%nat then nadd (nsub (nth j x n0) h) h else nth j x n0) (seq 0 (length x)).
  Definition back2 (h : T) (x : vec) (i : nat) : vec :=
    map (fun j => if (j <? i)%nat then nsub (nadd (nth j x n0) h) h else nth j x n0) (seq 0 (length x)).

  Lemma nth_map_seq (f : nat -> T) n j : j < n -> nth j (map f (seq 0 n)) n0 = f j.
  Proof.
    intros H. rewrite (nth_indep _ n0 (f 0)) by (rewrite map_length, seq_length; lia).
    rewrite map_nth, seq_nth by lia. reflexivity.
  Qed.
  Lemma len_map_seq (f : nat -> T) n : length (map f (seq 0 n)) = n.
  Proof. rewrite map_length, seq_length. reflexivity. Qed.

  Lemma back1_0 h x : back1 h x 0 = x.
  Proof.
    apply (list_ext n0); unfold back1; rewrite len_map_seq; auto. intros i Hi.
    rewrite nth_map_seq by lia. reflexivity.
  Qed.
  Lemma back2_0 h x : back2 h x 0 = x.
  Proof.
    apply (list_ext n0); unfold back2; rewrite len_map_seq; auto. intros i Hi.
    rewrite nth_map_seq by lia. reflexivity.
  Qed.

  Ltac pts i Hi :=
    match goal with |- upd ?i0 ?a (map ?f (seq 0 ?n)) = map ?g (seq 0 ?n) =>
      apply (list_ext n0); rewrite upd_length, !len_map_seq; auto; intros j Hj;
      rewrite (nth_map_seq g) by lia;
      destruct (Nat.eq_dec i0 j) as [->|Hne];
        [rewrite upd_nth_same by (rewrite len_map_seq; lia)
        |rewrite upd_nth_other by lia; rewrite (nth_map_seq f) by lia]
    end.

  Ltac nb := repeat match goal with
    | |- context [(?a =? ?b)%nat] => destruct (Nat.eqb_spec a b); try lia
    | |- context [(?a <? ?b)%nat] => destruct (Nat.ltb_spec a b); try lia
    end; try reflexivity.

  Lemma upd_minus h x i : i < length x ->
    upd i (nsub (nth i (back1 h x i) n0) h) (back1 h x i) = ng_minus h x i.
  Proof.
    intros Hi. unfold back1, ng_minus. pts i Hi.
    - rewrite nth_map_seq by lia. nb.
    - nb.
  Qed.
  Lemma upd_plus h x i : i < length x ->
    upd i (nadd (nth i (back2 h x i) n0) h) (back2 h x i) = ng_plus h x i.
  Proof.
    intros Hi. unfold back2, ng_plus. pts i Hi.
    - rewrite nth_map_seq by lia. nb.
    - nb.
  Qed.
  Lemma upd_minus_back h x i : i < length x ->
    upd i (nadd (nth i (ng_minus h x i) n0) h) (ng_minus h x i) = back1 h x (S i).
  Proof.
    intros Hi. unfold back1, ng_minus. pts i Hi.
    - rewrite nth_map_seq by lia. nb.
    - nb.
  Qed.
  Lemma upd_plus_back h x i : i < length x ->
    upd i (nsub (nth i (ng_plus h x i) n0) h) (ng_plus h x i) = back2 h x (S i).
  Proof.
    intros Hi. unfold back2, ng_plus. pts i Hi.
    - rewrite nth_map_seq by lia. nb.
    - nb.
  Qed.

  Lemma wp_count_fun nf x (Q : T * Z -> St -> Prop) (Xc : Exn -> St -> Prop) s :
    (forall y s', tr s' = tr s ++ [EEval x (inl y)] -> argbuf s' = argbuf s -> Q (y, nf + 1)%Z s') ->
    (forall n s', ncalls (tr s') = S (ncalls (tr s)) -> Xc (UserError n) s') ->
    wp (count_fun nf x) Q Xc s.
  Proof.
    intros HQ HX. unfold count_fun. apply wp_bind, wp_call_fun.
    2:{ intros n w _. apply HX. cbn. rewrite ncalls_app. cbn. lia. }
    intros y w _. apply wp_ret, HQ; auto.
  Qed.

  Lemma wp_numerical_gradient h nf x (Q : vec * Z -> St -> Prop) (Xc : Exn -> St -> Prop) s :
    (forall g evs s', tr s' = tr s ++ evs -> argbuf s' = argbuf s -> GradOf h x g evs ->
        Q (g, nf + 2 * Z.of_nat (length x))%Z s') ->
    (forall n s', Xc (UserError n) s') ->
    wp (numerical_gradient h nf x) Q Xc s.
  Proof.
    intros HQ HX. unfold numerical_gradient. apply wp_bind.
    eapply wp_post.
    - apply (wp_foldM (ng_one h) (seq 0 (length x))
        (fun done acc s' => exists g es, let i := length done in
           acc = (back1 h x i, back2 h x i, g, (nf + 2 * Z.of_nat i)%Z) /\
           tr s' = tr s ++ map ok es /\ argbuf s' = argbuf s /\
           length g = i /\ length es = 2 * i /\
           forall k, k < i -> exists f1 f2,
             nth (2 * k) es ([], n0) = (ng_plus h x k, f2) /\
             nth (2 * k + 1) es ([], n0) = (ng_minus h x k, f1) /\
             nth k g n0 = nsub f2 f1)
        Xc [] (x, x, [], nf) s).
      + exists [], []. cbn. rewrite back1_0, back2_0, app_nil_r, Z.add_0_r.
        repeat split; auto; lia.
      + intros pre i post acc s' Hl (g & es & -> & Ht & Hab & Hg & He & Hk). cbn [app] in *.
        assert (Hi : i = length pre).
        { assert (H : nth (length pre) (seq 0 (length x)) 0 = i)
            by (rewrite Hl, app_nth2, Nat.sub_diag by lia; reflexivity).
          rewrite <- H. apply nth_seq0. rewrite <- (seq_length (length x) 0), Hl, app_length. cbn. lia. }
        assert (Hlt : length pre < length x).
        { rewrite <- (seq_length (length x) 0), Hl, app_length. cbn. lia. }
        rewrite <- Hi in *. unfold ng_one.
        rewrite upd_minus, upd_plus by lia.
        apply wp_bind, wp_count_fun; [|auto]. intros f2 s1 Ht1 Hab1.
        apply wp_bind, wp_count_fun; [|auto]. intros f1 s2 Ht2 Hab2.
        rewrite upd_minus_back, upd_plus_back by lia. apply wp_ret.
        exists (g ++ [nsub f2 f1]), (es ++ [(ng_plus h x i, f2); (ng_minus h x i, f1)]).
        cbn zeta. rewrite !app_length. cbn [length]. rewrite <- Hi.
        replace (i + 1) with (S i) by lia.
        split; [f_equal; lia|].
        split; [rewrite Ht2, Ht1, Ht, map_app, <- !app_assoc; reflexivity|].
        split; [congruence|]. split; [lia|]. split; [lia|].
        intros k Hk'. destruct (Nat.eq_dec k i) as [->|Hne].
        * exists f1, f2. rewrite !app_nth2 by lia.
          replace (2 * i - length es) with 0 by lia.
          replace (2 * i + 1 - length es) with 1 by lia. replace (i - length g) with 0 by lia.
          repeat split.
        * rewrite !app_nth1 by lia. apply Hk. lia.
    - cbn [app]. intros [[[x1 x2] g] nf'] s' (g' & es & Heq & Ht & Hab & Hg & He & Hk).
      rewrite seq_length in *. injection Heq as -> -> -> ->. apply wp_ret.
      apply (HQ _ (map ok es)); auto. constructor.
      + rewrite map_length. exact Hg.
      + rewrite evals_ok. reflexivity.
      + rewrite evals_ok. exact He.
      + intros k Hk'. rewrite evals_ok. destruct (Hk k Hk') as (f1 & f2 & H1 & H2 & H3).
        exists f1, f2. repeat split; auto.
        rewrite (nth_indep _ n0 (ndiv (nmul (nlit 5 (-1)) n0) h)) by (rewrite map_length; lia).
        rewrite (map_nth (fun v => ndiv (nmul (nlit 5 (-1)) v) h)), H3. reflexivity.
  Qed.

  (** ** Specification of the leap-frog integration: positions Q_0 .. Q_{n+1}, momenta P_0 .. P_n,
      gradients g_0 .. g_{n+1} with the evaluations that computed them. *)
  Definition at_ (l : list vec) (i : nat) : vec := nth i l [].
  Record Leapfrog (h : T) (step : vec) (n : nat) (q0 p0 q p : vec) (evs : list event) : Prop := {
    lf_data : exists (Q P G : list vec) (V : list (list event)),
      length Q = n + 2 /\ length P = n + 1 /\ length G = n + 2 /\ length V = n + 2 /\
      evs = concat V /\
      (forall i, i < n + 2 -> GradOf h (at_ Q i) (at_ G i) (nth i V [])) /\
      at_ Q 0 = q0 /\ at_ P 0 = half_kick step p0 (at_ G 0) /\
      (forall i, i < n + 1 -> at_ Q (S i) = drift step (at_ Q i) (at_ P i)) /\
      (forall i, i < n -> at_ P (S i) = kick step (at_ P i) (at_ G (S i))) /\
      q = at_ Q (n + 1) /\ p = half_kick step (at_ P n) (at_ G (n + 1)) }.

  Lemma drift_length step q p : length step = length q -> length p = length q ->
    length (drift step q p) = length q.
  Proof. intros. unfold drift, vadd, vmul. rewrite !map2_length. lia. Qed.
  Lemma kick_length step p g : length step = length p -> length g = length p ->
    length (kick step p g) = length p.
  Proof. intros. unfold kick, vsub, vmul. rewrite !map2_length. lia. Qed.
  Lemma half_kick_length step p g : length step = length p -> length g = length p ->
    length (half_kick step p g) = length p.
  Proof. intros. unfold half_kick, vsub. rewrite !map2_length. lia. Qed.

  (** partial integration: after m kicks *)
  Definition Leaping (h : T) (step : vec) (m : nat) (q0 p0 : vec) (Q P G : list vec)
      (V : list (list event)) : Prop :=
    length Q = m + 2 /\ length P = m + 1 /\ length G = m + 1 /\ length V = m + 1 /\
    (forall i, i < m + 1 -> GradOf h (at_ Q i) (at_ G i) (nth i V [])) /\
    at_ Q 0 = q0 /\ at_ P 0 = half_kick step p0 (at_ G 0) /\
    (forall i, i < m + 1 -> at_ Q (S i) = drift step (at_ Q i) (at_ P i)) /\
    (forall i, i < m -> at_ P (S i) = kick step (at_ P i) (at_ G (S i))) /\
    Forall (fun q : vec => length q = length q0) Q /\ Forall (fun p : vec => length p = length q0) P.

  Lemma wp_leap_loop h step (Xc : Exn -> St -> Prop) n :
    forall m q0 p0 Q P G V nf (K : vec * vec * Z -> St -> Prop) s t,
    length step = length q0 -> (forall n s', Xc (UserError n) s') ->
    Leaping h step m q0 p0 Q P G V -> tr s = t ++ concat V ->
    (forall Q' P' G' V' s', Leaping h step (m + n) q0 p0 Q' P' G' V' ->
       tr s' = t ++ concat V' -> argbuf s' = argbuf s ->
       K (at_ Q' (m + n + 1), at_ P' (m + n), nf + 2 * Z.of_nat n * Z.of_nat (length q0))%Z s') ->
    wp (leap_loop (numerical_gradient h) step n (at_ Q (m + 1)) (at_ P m) nf) K Xc s.
  Proof.
    induction n as [|n IH]; intros m q0 p0 Q P G V nf K s t Hst HX HL Ht HK; cbn [leap_loop].
    - apply wp_ret. specialize (HK Q P G V s). rewrite Nat.add_0_r in HK. cbn in HK.
      rewrite Z.add_0_r in HK. apply HK; auto.
    - apply wp_bind. apply wp_numerical_gradient; [|auto]. intros g evs s1 Ht1 Hab1 HG.
      destruct HL as (HQ & HP & HGl & HV & Hgr & HQ0 & HP0 & Hd & Hk & HFQ & HFP).
      assert (Hq : length (at_ Q (m + 1)) = length q0)
        by (rewrite (@Forall_nth' vec) with (d := []) in HFQ; apply HFQ; lia).
      assert (Hp : length (at_ P m) = length q0)
        by (rewrite (@Forall_nth' vec) with (d := []) in HFP; apply HFP; lia).
      pose proof (gr_len _ _ _ _ HG) as Hgl.
      set (p' := kick step (at_ P m) g) in *. set (q' := drift step (at_ Q (m + 1)) p') in *.
      assert (Hp' : length p' = length q0) by (unfold p'; rewrite kick_length; congruence).
      assert (Hq' : length q' = length q0) by (unfold q'; rewrite drift_length; congruence).
      assert (Hend : at_ (Q ++ [q']) (S m + 1) = q' /\ at_ (P ++ [p']) (S m) = p').
      { unfold at_. rewrite !nth_snoc_eq by lia. auto. }
      destruct Hend as [He1 He2]. rewrite <- He1, <- He2.
      apply (IH (S m) q0 p0 (Q ++ [q']) (P ++ [p']) (G ++ [g]) (V ++ [evs]) _ K s1 t); auto.
      + unfold Leaping, at_ in *. rewrite !app_length. cbn [length]. 
        repeat (split; [lia|]).
        split; [|split; [|split; [|split; [|split; [|split]]]]].
        * intros i Hi. rewrite (nth_snoc_lt Q) by lia. destruct (Nat.eq_dec i (m + 1)) as [->|Hne].
          -- rewrite !nth_snoc_eq by lia. exact HG.
          -- rewrite !nth_snoc_lt by lia. apply Hgr. lia.
        * rewrite nth_snoc_lt by lia. exact HQ0.
        * rewrite (nth_snoc_lt P), (nth_snoc_lt G) by lia. exact HP0.
        * intros i Hi. rewrite (nth_snoc_lt Q _ _ i) by lia. destruct (Nat.eq_dec i (m + 1)) as [->|Hne].
          -- rewrite (nth_snoc_eq Q), (nth_snoc_eq P) by lia. reflexivity.
          -- rewrite (nth_snoc_lt Q), (nth_snoc_lt P) by lia. apply Hd. lia.
        * intros i Hi. rewrite (nth_snoc_lt P _ _ i) by lia. destruct (Nat.eq_dec i m) as [->|Hne].
          -- rewrite (nth_snoc_eq P), (nth_snoc_eq G) by lia. reflexivity.
          -- rewrite (nth_snoc_lt P), (nth_snoc_lt G) by lia. apply Hk. lia.
        * apply Forall_app; auto.
        * apply Forall_app; auto.
      + rewrite Ht1, Ht, concat_app. cbn. rewrite app_nil_r, app_assoc. reflexivity.
      + intros Q' P' G' V' s' HL' Ht' Hab'. replace (S m + n) with (m + S n) in * by lia.
        replace (nf + 2 * Z.of_nat (length (at_ Q (m + 1))) + 2 * Z.of_nat n * Z.of_nat (length q0))%Z
          with (nf + 2 * Z.of_nat (S n) * Z.of_nat (length q0))%Z by (rewrite Hq; lia).
        apply (HK Q' P' G' V' s'); auto. congruence.
  Qed.

  Lemma wp_leapfrog h step n q0 p0 nf (K : vec * vec * Z -> St -> Prop) (Xc : Exn -> St -> Prop) s :
    length step = length q0 -> length p0 = length q0 -> (forall n s', Xc (UserError n) s') ->
    (forall q p evs s', Leapfrog h step n q0 p0 q p evs -> length q = length q0 ->
       ncalls evs = 2 * (n + 2) * length q0 -> length (evals evs) = ncalls evs ->
       evs = map ok (evals evs) ->
       tr s' = tr s ++ evs -> argbuf s' = argbuf s ->
       K (q, p, nf + 2 * Z.of_nat (n + 2) * Z.of_nat (length q0))%Z s') ->
    wp (leapfrog (numerical_gradient h) step n q0 p0 nf) K Xc s.
  Proof.
    intros Hst Hp0 HX HK. unfold leapfrog.
    apply wp_bind, wp_numerical_gradient; [|auto]. intros g evs s1 Ht1 Hab1 HG.
    pose proof (gr_len _ _ _ _ HG) as Hgl.
    set (p1 := half_kick step p0 g). set (q1 := drift step q0 p1).
    assert (Hp1 : length p1 = length q0) by (unfold p1; rewrite half_kick_length; congruence).
    assert (Hq1 : length q1 = length q0) by (unfold q1; rewrite drift_length; congruence).
    cbn zeta. apply wp_bind.
    change q1 with (at_ [q0; q1] (0 + 1)). change p1 with (at_ [p1] 0).
    apply (wp_leap_loop h step Xc n 0 q0 p0 [q0; q1] [p1] [g] [evs] _ _ s1 (tr s)); auto.
    - unfold Leaping. repeat (split; [reflexivity|]).
      split; [|split; [|split; [|split; [|split; [|split]]]]]; auto.
      + intros i Hi. replace i with 0 by lia. exact HG.
      + intros i Hi. replace i with 0 by lia. reflexivity.
      + intros i Hi. lia.
    - cbn. rewrite app_nil_r. exact Ht1.
    - intros Q P G V s2 (HQ & HP & HGl & HV & Hgr & HQ0 & HP0 & Hd & Hk & HFQ & HFP) Ht2 Hab2.
      cbn [plus] in *.
      apply wp_bind, wp_numerical_gradient; [|auto]. intros g2 evs2 s3 Ht3 Hab3 HG2. apply wp_ret.
      assert (Hq : length (at_ Q (n + 1)) = length q0)
        by (rewrite (@Forall_nth' vec) with (d := []) in HFQ; apply HFQ; lia).
      replace (nf + 2 * Z.of_nat (length q0) + 2 * Z.of_nat n * Z.of_nat (length q0)
               + 2 * Z.of_nat (length (at_ Q (n + 1))))%Z
        with (nf + 2 * Z.of_nat (n + 2) * Z.of_nat (length q0))%Z by (rewrite Hq; lia).
      assert (HGs : forall i, i < n + 2 -> GradOf h (at_ Q i) (at_ (G ++ [g2]) i) (nth i (V ++ [evs2]) [])).
      { intros i Hi. unfold at_ in *. destruct (Nat.eq_dec i (n + 1)) as [->|Hne].
        - rewrite !nth_snoc_eq by lia. exact HG2.
        - rewrite !nth_snoc_lt by lia. apply Hgr. lia. }
      assert (Hcount : forall W, (forall i, i < length W -> exists x g, length x = length q0 /\ GradOf h x g (nth i W [])) ->
        length (evals (concat W)) = 2 * length W * length q0 /\
        concat W = map ok (evals (concat W))).
      { clear. induction W as [|e W IH]; intros HW; [split; reflexivity|].
        destruct IH as [IH1 IH2]; [intros i Hi; apply (HW (S i)); cbn; lia|].
        destruct (HW 0) as (x & g & Hx & HG); [cbn; lia|]. cbn [nth concat] in *.
        rewrite evals_app, map_app, app_length, IH1, (gr_count _ _ _ _ HG), Hx. cbn [length].
        split; [lia|]. rewrite <- IH2. f_equal. exact (gr_only _ _ _ _ HG). }
      destruct (Hcount (V ++ [evs2])) as [Hc1 Hc2].
      { rewrite app_length. cbn. intros i Hi. exists (at_ Q i), (at_ (G ++ [g2]) i).
        split; [|apply HGs; lia]. rewrite (@Forall_nth' vec) with (d := []) in HFQ; apply HFQ; lia. }
      rewrite app_length, HV in Hc1. cbn [length] in Hc1.
      apply (HK _ _ (concat (V ++ [evs2]))).
      + constructor. exists Q, P, (G ++ [g2]), (V ++ [evs2]).
        rewrite !app_length. cbn [length].
        do 4 (split; [lia|]). split; [reflexivity|]. split; [exact HGs|].
        unfold at_ in *. split; [exact HQ0|].
        split; [rewrite (nth_snoc_lt G) by lia; exact HP0|].
        split; [exact Hd|].
        split; [intros i Hi; rewrite (nth_snoc_lt G) by lia; apply Hk; lia|].
        split; [reflexivity|]. rewrite (nth_snoc_eq G) by lia. reflexivity.
      + exact Hq.
      + rewrite Hc2, ncalls_ok, Hc1. lia.
      + rewrite Hc2 at 2. rewrite ncalls_ok. reflexivity.
      + exact Hc2.
      + rewrite concat_app, Ht3, Ht2. cbn. rewrite app_nil_r, app_assoc. reflexivity.
      + congruence.
  Qed.
End Grad.

Section Hmc.
  Context {N : Num} {E : Env N} {L : OrdLaws num_arith}.

  (** One step of hmc: the trajectory from the current sample with a normal momentum p0, then the
      test with the energies; the value of the current sample is computed again ([U0]). *)
  Definition hmR (a : SArgs) (d n : nat) (h : T) (steps : vec) : StepRel :=
    fun X F acc y fy bb evs =>
      exists p0 p evl tail imin fmin,
        length p0 = d /\ Forall israndn p0 /\
        Leapfrog h steps n (lastx X) p0 y p evl /\ length y = d /\
        ncalls evl = 2 * (n + 2) * d /\ evl = map ok (evals evl) /\
        (if rejects a then bb = false /\ tail = []
         else exists U0 u, isrand u /\
           bb = metropolis (nsub (nadd (nsub U0 fy) (kinetic p0)) (kinetic p)) u /\
           tail = [EEval (lastx X) (inl U0); EEval y (inl fy)]) /\
        let X' := X ++ [if bb then y else lastx X] in
        let F' := F ++ [if bb then fy else lastf F] in
        BestAcc X' F' (acc ++ [bb]) imin fmin /\
        evs = evl ++ tail ++ scbe a X' F' (acc ++ [bb]) imin.

  (** evaluations per step *)
  Definition hm_cost (a : SArgs) (d n : nat) : nat := 2 * (n + 2) * d + (if rejects a then 0 else 2).

  Section Loop.
    Variables (A : HMCArgs) (rows : matrix) (steps : vec) (x0 : vec) (f0 : T) (t0 : list event).
    Let a := hma A.
    Let d := length rows.
    Let n := Z.to_nat (hma_nleap A).
    Let P := mkHMCParams (lows rows) (ups rows) steps n (hma_jac A) (hma_fd A) d a.
    Let R := hmR a d n (hma_fd A) steps.
    Hypothesis Hsteps : length steps = d.
    Hypothesis Hx0 : length x0 = d.
    Hypothesis Hjac : hma_jac A = JacNone.

    Lemma hm_R_len X F acc t : Traj R x0 f0 t0 X F acc t -> Forall (fun x : vec => length x = d) X.
    Proof.
      induction 1 as [|X F acc t y fy bb evs HT IH HR]; [repeat constructor; auto|].
      apply Forall_app; split; auto. constructor; [|constructor].
      assert (Hl : length (lastx X) = d).
      { unfold lastx. rewrite Forall_forall in IH. apply IH, nth_In.
        apply Traj_len in HT. lia. }
      destruct bb; auto. destruct HR as (p0 & p & evl & tail & imin & fmin & _ & _ & _ & Hy & _). exact Hy.
    Qed.
    Lemma hm_lastx_len X F acc t : Traj R x0 f0 t0 X F acc t -> length (lastx X) = d.
    Proof.
      intros HT. pose proof (hm_R_len _ _ _ _ HT) as HF. rewrite Forall_forall in HF.
      apply HF, nth_In. apply Traj_len in HT. unfold lastx in *. lia.
    Qed.

    Definition hmX (e : Exn) (s : St) : Prop := exists m, e = UserError m.

    Lemma wp_hmc_move c nf acc (Q : Chain * Z -> St -> Prop) s :
      Rep R x0 f0 t0 c acc (tr s) ->
      (forall c' bb s', Rep R x0 f0 t0 c' (acc ++ [bb]) (tr s') ->
         Q (c', nf + Z.of_nat (hm_cost a d n))%Z s') ->
      wp (hmc_move P (c, nf)) Q hmX s.
    Proof.
      intros HR HQ. unfold hmc_move. cbn [hm_d hm_jac hm_fd hm_step hm_nleap hm_lower hm_upper hm_args P].
      pose proof (rp_traj _ _ _ _ _ _ _ HR) as HT.
      pose proof (hm_lastx_len _ _ _ _ HT) as Hlx.
      destruct (Traj_len _ _ _ _ _ _ _ _ HT) as [HlX HlF].
      change (ch_last_x c) with (lastx (ch_x c)).
      eapply wp_quietT; [apply quietT_randn_vec|]. intros p0 s1 Ht1 _ [Hp0 HF0].
      rewrite Hjac. cbn [hmc_jac].
      apply wp_bind. apply wp_leapfrog; [congruence|congruence|intros; eexists; reflexivity|].
      intros q p evl s2 HL Hq Hnc Hle Hmap Ht2 _. rewrite Hlx in *. rewrite Ht1 in Ht2.
      rewrite in_space_rejects. unfold hm_cost in HQ.
      destruct (rejects a) eqn:Hrej; cbn [negb].
      - apply wp_bind, wp_ret. apply wp_bind.
        apply (wp_s_cb a (ch_reject c) (acc ++ [false])).
        + cbn. rewrite nacc_snoc, (rp_acc _ _ _ _ _ _ _ HR). lia.
        + intros s3 Ht3 _. apply wp_ret.
          replace (nf + 2 * Z.of_nat (n + 2) * Z.of_nat d)%Z
            with (nf + Z.of_nat (2 * (n + 2) * d + 0))%Z by lia.
          apply (HQ _ false). rewrite Ht3, Ht2, <- app_assoc.
          apply (rep_reject R _ _ _ _ _ _ q n0); auto. unfold R, hmR. rewrite Hrej.
          exists p0, p, evl, [], (ch_imin c), (ch_fmin c). repeat (split; [auto; fail|]).
          split; [apply BestAcc_reject; [exact HlF|apply HR]|reflexivity].
        + intros; eexists; reflexivity.
      - apply wp_bind. apply wp_bind. apply wp_count_fun; [|intros; eexists; reflexivity].
        intros U0 s3 Ht3 _. apply wp_bind. apply wp_count_fun; [|intros; eexists; reflexivity].
        intros U s4 Ht4 _. eapply wp_quietT; [apply quietT_rand|]. intros u s5 Ht5 _ Hu.
        apply wp_ret. apply wp_bind.
        replace (nf + 2 * Z.of_nat (n + 2) * Z.of_nat d + 1 + 1)%Z
          with (nf + Z.of_nat (2 * (n + 2) * d + 2))%Z by lia.
        destruct (metropolis _ u) eqn:Hm.
        + apply (wp_s_cb a _ (acc ++ [true])).
          * unfold ch_accept. destruct (nltb U (ch_fmin c)); cbn;
              rewrite nacc_snoc, (rp_acc _ _ _ _ _ _ _ HR); lia.
          * intros s6 Ht6 _. apply wp_ret. apply (HQ _ true).
            rewrite Ht6, Ht5, Ht4, Ht3, Ht2, <- !app_assoc.
            apply rep_accept; auto. unfold R, hmR. rewrite Hrej.
            pose proof (BestAcc_accept _ _ _ _ _ q U HlX HlF (rp_best _ _ _ _ _ _ _ HR)) as HB.
            exists p0, p, evl, [EEval (lastx (ch_x c)) (inl U0); EEval q (inl U)].
            eexists; eexists. repeat (split; [auto; fail|]).
            split; [exists U0, u; repeat split; auto|].
            split; [exact HB|]. unfold ch_accept. destruct (nltb U (ch_fmin c)); reflexivity.
          * intros; eexists; reflexivity.
        + apply (wp_s_cb a _ (acc ++ [false])).
          * cbn. rewrite nacc_snoc, (rp_acc _ _ _ _ _ _ _ HR). lia.
          * intros s6 Ht6 _. apply wp_ret. apply (HQ _ false).
            rewrite Ht6, Ht5, Ht4, Ht3, Ht2, <- !app_assoc.
            apply (rep_reject R _ _ _ _ _ _ q U); auto. unfold R, hmR. rewrite Hrej.
            exists p0, p, evl, [EEval (lastx (ch_x c)) (inl U0); EEval q (inl U)].
            exists (ch_imin c), (ch_fmin c). repeat (split; [auto; fail|]).
            split; [exists U0, u; repeat split; auto|].
            split; [apply BestAcc_reject; [exact HlF|apply HR]|reflexivity].
          * intros; eexists; reflexivity.
    Qed.

    Lemma wp_hmc_loop : forall m c nf acc s,
      Rep R x0 f0 t0 c acc (tr s) ->
      wp (hmc_loop P m (c, nf))
         (fun r s' => exists acc', Rep R x0 f0 t0 (fst r) acc' (tr s') /\
            length acc' = length acc + m /\ snd r = (nf + Z.of_nat (m * hm_cost a d n))%Z) hmX s.
    Proof.
      induction m as [|m IH]; intros c nf acc s HR; cbn [hmc_loop].
      - apply wp_ret. exists acc. cbn. repeat split; auto; try apply HR; lia.
      - apply wp_bind. eapply wp_hmc_move; [exact HR|]. intros c' bb s' HR'.
        eapply wp_post; [apply (IH _ _ _ _ HR')|]. cbn beta. intros r s'' (acc' & H1 & H2 & H3).
        exists acc'. split; auto. rewrite app_length in H2. cbn in H2. split; [lia|]. lia.
    Qed.
  End Loop.

  (** ** Whole runs *)
  Record HmSet (A : HMCArgs) (rows : matrix) (steps x : vec) (f : T) (t0 : list event) : Prop := {
    hs_bounds : s_bounds (hma A) = D2 2 rows;
    hs_steps : scaled_steps (hma A) rows steps;
    hs_first : first_sample (hma A) rows x;
    hs_len : length x = length rows;
    hs_mx : (1 <= s_maxiter (hma A))%Z;
    hs_nleap : (1 <= hma_nleap A)%Z;
    hs_t0 : t0 = EEval x (inl f) :: scbe0 (hma A) x f }.

  Record HmRun (A : HMCArgs) rows steps x f t0 X F acc (res : SampRes) (t : list event) : Prop := {
    hr_set : HmSet A rows steps x f t0;
    hr_traj : Traj (hmR (hma A) (length rows) (Z.to_nat (hma_nleap A)) (hma_fd A) steps) x f t0 X F acc t;
    hr_len : Z.of_nat (length X) = s_maxiter (hma A);
    hr_res : res = {| sr_x := nth (argmin F) X []; sr_fun := nth (argmin F) F n0;
                      sr_nit := s_maxiter (hma A);
                      sr_accept := ndiv (nZ (Z.of_nat (nacc acc))) (nZ (s_maxiter (hma A)));
                      sr_nfev := Some (1 + Z.of_nat (length acc *
                         hm_cost (hma A) (length rows) (Z.to_nat (hma_nleap A))))%Z;
                      sr_all := if s_return_all (hma A) then Some (X, F) else None |} }.

  (** the part before the loop *)
  Lemma wp_hmc_start (A : HMCArgs) w a0 (Q : SampRes -> St -> Prop) (Xc : Exn -> St -> Prop) :
    early Xc [] -> (forall n s', ncalls (tr s') = 1 -> Xc (UserError n) s') ->
    (forall rows steps x f s4, HmSet A rows steps x f (tr s4) -> hma_jac A <> JacBad ->
       wp ('(c, nf) <- hmc_loop (mkHMCParams (lows rows) (ups rows) steps (Z.to_nat (hma_nleap A))
                           (hma_jac A) (hma_fd A) (length rows) (hma A))
                        (Z.to_nat (s_maxiter (hma A)) - 1) (mkChain [x] [f] 0 0 ninf, 1%Z) ;;
           idx <- np_argmin (ch_f c) ;;
           ret {| sr_x := nth idx (ch_x c) []; sr_fun := nth idx (ch_f c) n0;
                  sr_nit := s_maxiter (hma A);
                  sr_accept := ndiv (nZ (ch_acc c)) (nZ (s_maxiter (hma A))); sr_nfev := Some nf;
                  sr_all := if s_return_all (hma A) then Some (ch_x c, ch_f c) else None |})
          Q Xc s4) ->
    wp (hmc_sample A) Q Xc (mkSt w [] a0).
  Proof.
    intros HX HU HK. unfold hmc_sample. cbn zeta.
    apply wp_bind, wp_s_check; [exact HX|]. intros rows Hb Hx0.
    apply wp_bind, wp_raise_if; intros Hn; [apply HX; congruence || auto|]. apply Z.ltb_ge in Hn.
    apply wp_bind. apply wp_s_steps; [exact Hb|exact HX|]. intros steps s1 Ht1 Hsl Hsn _. cbn [tr] in Ht1.
    apply wp_bind, wp_raise_if; intros Hj; [apply HX; congruence || auto|].
    apply wp_bind, wp_s_seed_cb; [rewrite Ht1; exact HX|].
    intros s2 Ht2 _. rewrite Ht1 in Ht2.
    apply wp_bind, wp_s_first; [exact Hx0|rewrite Ht2; exact HX|].
    intros x s3 Ht3 Hxl Hfs Hmx. rewrite Ht2 in Ht3.
    rewrite Hb in *. cbn [nd_len] in *.
    apply wp_bind, wp_count_fun; [|intros n0' s' Hc; apply HU; rewrite Hc, Ht3; reflexivity].
    intros f s3' Ht3' _. rewrite Ht3 in Ht3'. cbn [app] in Ht3'.
    apply wp_bind, wp_s_first_cb; [|intros n0' s' Hc; apply HU; rewrite Hc, Ht3'; reflexivity]. intros s4 Ht4. rewrite Ht3' in Ht4. cbn [tr app] in Ht4.
    apply HK; [|destruct (hma_jac A); discriminate || congruence].
    constructor; auto. split; auto.
  Qed.

  Lemma hmc_wp A w a0 : hma_jac A = JacNone ->
    wp (hmc_sample A)
       (fun res s => exists rows steps x f t0 X F acc, HmRun A rows steps x f t0 X F acc res (tr s))
       (fun e s => e <> OutOfFuel /\ (tr s = [] \/ exists n, e = UserError n)) (mkSt w [] a0).
  Proof.
    intros Hjac. apply wp_hmc_start.
    - intros e s' Ht He _; auto.
    - intros n s' _. split; [discriminate|]. right; eauto.
    - intros rows steps x f s4 HS _. apply wp_bind. eapply wp_conseq.
      + eapply (wp_hmc_loop A rows steps x f (tr s4)); auto.
        * apply HS.
        * apply HS.
        * apply Rep_init.
      + cbn beta. intros [c nf] s5 (acc & HR & Hl & Hnf). cbn [fst snd] in *.
        destruct HR as [HT Hac HB]. pose proof (Traj_len _ _ _ _ _ _ _ _ HT) as [HlX HlF].
        unfold np_argmin. destruct (ch_f c) as [|f1 F1] eqn:HF; [discriminate HlF|].
        rewrite <- HF in *. apply wp_bind, wp_ret, wp_ret.
        exists rows, steps, x, f, (tr s4), (ch_x c), (ch_f c), acc. constructor; auto.
        * pose proof (hs_mx _ _ _ _ _ _ HS). cbn in Hl. lia.
        * rewrite Hac, Hnf. cbn in Hl. rewrite Hl. reflexivity.
      + cbn beta. intros e s5 [m ->]. split; [discriminate|]. right; eauto.
  Qed.
End Hmc.

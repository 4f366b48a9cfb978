(** One generation of DE, CPSO and NA, abstractly: which points were evaluated, and how the
    population and the best solution follow from their values. *)
From Verif Require Import Base Num Env Common DE CPSO NA Hoare EvalRules.

Section GenDefs.
  Context {N : Num} {E : Env N}.
  Local Open Scope num_scope.

  (** kept solutions, their values, best solution, its value *)
  Record Q4 := mkQ4 { qx : matrix; qf : vec; qb : vec; qbf : T }.

  Definition sync_next (it mx : Z) (xtol ftol : T) (cand : matrix) (cf : vec) (q : Q4)
    : Q4 * option Z :=
    let r := sync_sel it cand cf (qb q) (qx q) (qf q) mx xtol ftol in
    (mkQ4 (ss_x r) (ss_xfun r) (ss_best r) (ss_bestfun r), ss_status r).
  Definition async1 (xtol ftol : T) (i : nat) (c : vec) (cf : T) (q : Q4) : Q4 * option Z :=
    let r := async_sel c cf (qb q) (qbf q) (qx q) (qf q) xtol ftol i in
    (mkQ4 (sa_x r) (sa_xfun r) (sa_best r) (sa_bestfun r), sa_status r).
  Fixpoint asyncs (xtol ftol : T) (i : nat) (l : list (vec * T)) (q : Q4) (st : option Z)
    : Q4 * option Z :=
    match l with
    | [] => (q, st)
    | (c, cf) :: t => let r := async1 xtol ftol i c cf q in asyncs xtol ftol (S i) t (fst r) (snd r)
    end.
  Definition last_status (it mx : Z) (st : option Z) : option Z :=
    match st with
    | None => if (mx <=? it)%Z then Some (-1)%Z else None
    | Some c => Some c
    end.
  Definition gen_next (sync : bool) (it mx : Z) (xtol ftol : T) (cand : matrix) (cf : vec)
      (q : Q4) : Q4 * option Z :=
    if sync then sync_next it mx xtol ftol cand cf q
    else let r := asyncs xtol ftol 0 (combine cand cf) q None in
         (fst r, last_status it mx (snd r)).

  Lemma asyncs_app xtol ftol l1 l2 : forall i q st,
    asyncs xtol ftol i (l1 ++ l2) q st =
    asyncs xtol ftol (i + length l1) l2 (fst (asyncs xtol ftol i l1 q st))
           (snd (asyncs xtol ftol i l1 q st)).
  Proof.
    induction l1 as [|[c f] l1 IH]; intros i q st; cbn [app asyncs length].
    - rewrite Nat.add_0_r; destruct (asyncs xtol ftol i l2 q st) eqn:Heq; cbn; auto.
    - cbn zeta. rewrite IH. f_equal; lia.
  Qed.

  (** One generation as seen from outside. [view]: from the internal representation of a point
      to the point passed to the objective. *)
  Record GenStep (view : vec -> vec) (mode : Mode) (sync : bool) (it mx : Z) (xtol ftol : T)
      (p : nat) (q q' : Q4) (st : option Z) (evs : list event) (cand : matrix) (cf : vec)
    : Prop := mkGenStep {
    gs_len : length cand = p;
    gs_lenf : length cf = p;
    gs_cbs : cbs evs = [];
    gs_shares : Shares (if sync then mode else Serial) p cf evs;
    gs_ev : mode <> Mpi ->
            exists l, evs = map ok l /\ Permutation l (combine (map view cand) cf) /\
                      (mode = Serial -> l = combine (map view cand) cf);
    gs_next : gen_next sync it mx xtol ftol cand cf q = (q', st) }.

  (** The recording of one generation succeeded with this result (it is deterministic and has no
      effect). *)
  Definition RecW (nout : option Z) (mx it : Z) (pop : matrix) (pfit : vec) (best : vec * T)
      (r r' : option Rec) : Prop :=
    forall s, rec_write nout mx it pop pfit best r s = (inl r', s).

  Lemma wp_rec_write nout mx it pop pfit best r (Q : option Rec -> St -> Prop) s :
    (forall r', RecW nout mx it pop pfit best r r' -> Q r' s) ->
    wp (rec_write nout mx it pop pfit best r) Q NF s.
  Proof.
    unfold RecW, wp, rec_write. intros H. destruct nout as [n|]; [|apply H; reflexivity].
    destruct r as [r|]; [|apply H; reflexivity].
    unfold bind, rec_put, raise, ret, NF in *.
    destruct (mx <? it)%Z; [discriminate|].
    destruct (0 <? n)%Z; [|apply H; reflexivity].
    destruct (fit_rows (Z.to_nat n) (firstn (Z.to_nat n) pop)); cbn in *; [|discriminate].
    destruct (fit_rows (Z.to_nat n) (firstn (Z.to_nat n) pfit)); cbn in *; [|discriminate].
    apply H; reflexivity.
  Qed.

  (** ** Lengths *)
  Lemma sel_x_length cand cf x xf p :
    length cand = p -> length cf = p -> length x = p -> length xf = p ->
    length (sel_x cand cf x xf) = p.
  Proof. intros; unfold sel_x; rewrite map2_length, !combine_length; lia. Qed.
  Lemma sel_fun_length cf xf p : length cf = p -> length xf = p -> length (sel_fun cf xf) = p.
  Proof. intros; unfold sel_fun; rewrite map2_length; lia. Qed.

  Definition QLen (p : nat) (q : Q4) : Prop := length (qx q) = p /\ length (qf q) = p.

  Lemma async1_len xtol ftol i c cf q p :
    QLen p q -> QLen p (fst (async1 xtol ftol i c cf q)).
  Proof.
    intros [H1 H2]. unfold async1, async_sel, QLen.
    destruct (cf <=? nth i (qf q) n0); [destruct (cf <=? qbf q)|]; cbn;
      rewrite ?upd_length; auto.
  Qed.
  Lemma asyncs_len xtol ftol l p : forall i q st,
    QLen p q -> QLen p (fst (asyncs xtol ftol i l q st)).
  Proof.
    induction l as [|[c f] l IH]; intros i q st H; [exact H|].
    cbn [asyncs]. cbn zeta. apply IH, async1_len, H.
  Qed.
  Lemma gen_next_len sync it mx xtol ftol cand cf q p :
    length cand = p -> length cf = p -> QLen p q ->
    QLen p (fst (gen_next sync it mx xtol ftol cand cf q)).
  Proof.
    intros Hc Hf Hq. destruct sync; cbn [gen_next].
    - destruct Hq as [H1 H2]. split; cbn;
        [apply sel_x_length|apply sel_fun_length]; assumption.
    - cbn zeta. cbn [fst]. apply asyncs_len, Hq.
  Qed.

  (** Rows *)
  Lemma sel_x_Forall (C : vec -> Prop) cand cf x xf :
    Forall C cand -> Forall C x -> Forall C (sel_x cand cf x xf).
  Proof.
    intros H1 H2. unfold sel_x. apply Forall_map2.
    intros [c f] [y g] Ha Hb; cbn.
    apply in_combine_l in Ha, Hb. rewrite Forall_forall in H1, H2.
    destruct (f <? g); auto.
  Qed.

  (** np.argmin of a nonempty vector points into the vector *)
  Lemma argmin_from_lt mp ip i l : ip < i -> argmin_from mp ip i l < i + length l.
  Proof.
    revert mp ip i; induction l as [|v l IH]; intros mp ip i H; cbn; [lia|].
    destruct (mp <=? v).
    - specialize (IH mp ip (S i)); lia.
    - destruct (nisnan v); [lia|]. specialize (IH v i (S i)); lia.
  Qed.
  Lemma argmin_lt v : v <> [] -> argmin v < length v.
  Proof.
    destruct v as [|a v]; [congruence|]. intros _; cbn.
    destruct (nisnan a); [lia|]. apply argmin_from_lt; lia.
  Qed.

  Lemma wp_np_argmin v (Q : nat -> St -> Prop) s :
    (v <> [] -> Q (argmin v) s) -> wp (np_argmin v) Q NF s.
  Proof.
    intros H. destruct v; cbn; [apply wp_raise; discriminate|]. apply wp_ret, H. discriminate.
  Qed.

  (** ** Synchronous selection *)
  Lemma wp_selection_sync it cand xbest x xfun mx xtol ftol ev p
      (mode : Mode) (view : vec -> vec) (CM : matrix -> Prop) (Q : SelSync -> St -> Prop) s :
    length cand = p -> length x = p -> length xfun = p ->
    (* the rule of the evaluation *)
    (forall (R : matrix * vec -> St -> Prop),
        (forall X' f s' evs,
            length f = p -> length X' = p -> CM X' ->
            tr s' = tr s ++ evs -> cbs evs = [] -> Shares mode p f evs -> argbuf s' = argbuf s ->
            (mode <> Mpi -> X' = cand /\ exists l, evs = map ok l /\
                 Permutation l (combine (map view X') f) /\
                 (mode = Serial -> l = combine (map view X') f)) ->
            R (X', f) s') ->
        wp (ev cand) R NF s) ->
    (forall X' f s' evs,
        length f = p -> length X' = p -> CM X' ->
        tr s' = tr s ++ evs -> cbs evs = [] -> Shares mode p f evs -> argbuf s' = argbuf s ->
        (mode <> Mpi -> X' = cand /\ exists l, evs = map ok l /\
             Permutation l (combine (map view X') f) /\
             (mode = Serial -> l = combine (map view X') f)) ->
        Q (sync_sel it X' f xbest x xfun mx xtol ftol) s') ->
    wp (selection_sync it cand xbest x xfun mx xtol ftol ev) Q NF s.
  Proof.
    intros Hc Hx Hf Hev H. unfold selection_sync. apply wp_bind. apply Hev.
    intros X' f s' evs H1 H2 H3 H4 H5 H6 H7 H8.
    apply wp_bind, wp_np_argmin. intros _. apply wp_ret. eapply H; eauto.
  Qed.

  Lemma wp_eval_pop_rule mode cand p (C : vec -> Prop) s :
    ModeOK mode -> length cand = p -> Forall C cand ->
    (mode = Mpi -> forall n U, Forall C U -> Forall C (e_bcast n U)) ->
    forall (R : matrix * vec -> St -> Prop),
        (forall X' f s' evs,
            length f = p -> length X' = p -> Forall C X' ->
            tr s' = tr s ++ evs -> cbs evs = [] -> Shares mode p f evs -> argbuf s' = argbuf s ->
            (mode <> Mpi -> X' = cand /\ exists l, evs = map ok l /\
                 Permutation l (combine (map (fun x => x) X') f) /\
                 (mode = Serial -> l = combine (map (fun x => x) X') f)) ->
            R (X', f) s') ->
        wp (eval_pop mode cand) R NF s.
  Proof.
    intros Hm Hl HC HB R H. apply wp_eval_pop; [exact Hm| |discriminate].
    intros X' f s' evs H1 H2 H3 H4 H5 H6 H7 H8.
    assert (H5' : Shares mode p f evs) by (rewrite <- Hl; exact H5).
    apply (H X' f s' evs); auto.
    - rewrite <- Hl; exact H1.
    - apply (f_equal (@length nat)) in H2. rewrite !map_length in H2. rewrite <- Hl; exact H2.
    - destruct mode; try (destruct H7 as [-> _]; [discriminate|exact HC]).
      destruct (H8 eq_refl) as [n ->]. apply HB; auto.
    - intros Hmm. rewrite map_id. destruct (H7 Hmm) as [-> Hx]; auto.
  Qed.

  (** ** Asynchronous selection *)
  Lemma wp_selection_async c xbest xbestfun x xfun xtol ftol i (Q : SelAsync -> St -> Prop) s :
    (forall y s', tr s' = tr s ++ [ok (c, y)] -> argbuf s' = argbuf s ->
        Q (async_sel c y xbest xbestfun x xfun xtol ftol i) s') ->
    wp (selection_async c xbest xbestfun x xfun xtol ftol i) Q NF s.
  Proof.
    intros H. unfold selection_async. apply wp_bind, wp_call_fun.
    - intros y w _. apply wp_ret, H; reflexivity.
    - discriminate.
  Qed.

  Lemma combine_snoc {A B} (l1 : list A) (l2 : list B) a b :
    length l1 = length l2 -> combine (l1 ++ [a]) (l2 ++ [b]) = combine l1 l2 ++ [(a, b)].
  Proof.
    revert l2; induction l1 as [|x l1 IH]; intros [|y l2] H; cbn in *; try discriminate; auto.
    f_equal; auto.
  Qed.

  Lemma seq_split_at n pre i post : seq 0 n = pre ++ i :: post -> i = length pre /\ length pre < n.
  Proof.
    intros H.
    assert (Hl : length pre < n).
    { apply (f_equal (@length nat)) in H. rewrite seq_length, app_length in H; cbn in H; lia. }
    split; [|exact Hl].
    assert (nth (length pre) (seq 0 n) 0 = i).
    { rewrite H, app_nth2, Nat.sub_diag by lia; reflexivity. }
    rewrite nth_seq0 in H0 by exact Hl. congruence.
  Qed.

  Lemma firstn_upd {A} (l : list A) i a :
    i < length l -> firstn (S i) (upd i a l) = firstn i l ++ [a].
  Proof.
    revert i; induction l as [|h t IH]; intros [|i] H; cbn in *; try lia; auto.
    f_equal. apply IH; lia.
  Qed.
End GenDefs.

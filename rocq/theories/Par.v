(** Parallel evaluation does not change the run (C15): evaluation by joblib, in any order, and
    by MPI, with any number of ranks and any reduction order, against serial evaluation. *)
From Coq Require Import Permutation.
From Verif Require Import Base Num Env Common DE CPSO NA CMAES VDCMA Hoare Feas Rel Vary.

(** ** Sums over ranks *)
(** The order in which MPI adds the contributions of the ranks: any binary tree. *)
Inductive rtree := Leaf (r : nat) | Node (l r : rtree).
Fixpoint leaves (t : rtree) : list nat :=
  match t with Leaf r => [r] | Node l r => leaves l ++ leaves r end.
Fixpoint tsum {A : Arith} (t : rtree) (c : nat -> T) : T :=
  match t with Leaf r => c r | Node l r => nadd (tsum l c) (tsum r c) end.

(** The positions of the population that rank [r] of [size] evaluates. *)
Definition share {A} (r size : nat) (l : list A) : list A :=
  map snd (filter (fun p => fst p mod size =? r) (combine (seq 0 (length l)) l)).

(** Every position belongs to exactly one rank. *)
Lemma share_partition {A} size (l : list A) : 0 < size ->
  Permutation (concat (map (fun r => share r size l) (seq 0 size))) l.
Proof.
  intro HS. unfold share.
  assert (G : forall (c : list (nat * A)) k,
             Permutation (concat (map (fun r => map snd (filter (fun p => fst p mod size =? r) c))
                                      (seq k (size - k))))
                         (map snd (filter (fun p => k <=? fst p mod size) c))).
  { intros c k. remember (size - k) as n eqn:En. revert k En.
    induction n as [|n IH]; intros k En; cbn [seq map concat].
    - replace (filter (fun p : nat * A => k <=? fst p mod size) c) with (@nil (nat * A));
        [constructor|].
      symmetry. induction c as [|p c IHc]; [reflexivity|]. cbn.
      assert (fst p mod size < size) by (apply Nat.mod_upper_bound; lia).
      destruct (Nat.leb_spec k (fst p mod size)); [lia | exact IHc].
    - rewrite (IH (S k)) by lia. rewrite <- map_app. apply Permutation_map.
      clear. induction c as [|p c IHc]; [constructor|]. cbn [filter].
      destruct (Nat.eqb_spec (fst p mod size) k) as [->|Hk].
      + rewrite Nat.leb_refl. destruct (Nat.leb_spec (S k) k); [lia|].
        cbn. constructor. exact IHc.
      + destruct (Nat.leb_spec k (fst p mod size)), (Nat.leb_spec (S k) (fst p mod size));
          try lia; [|exact IHc].
        apply Permutation_sym, Permutation_cons_app, Permutation_sym, IHc. }
  specialize (G (combine (seq 0 (length l)) l) 0). rewrite Nat.sub_0_r in G.
  rewrite G. cbn [Nat.leb].
  replace (filter (fun _ : nat * A => true) (combine (seq 0 (length l)) l))
    with (combine (seq 0 (length l)) l).
  - clear. generalize 0. induction l as [|x l IH]; intro k; cbn; [constructor|].
    constructor. apply IH.
  - clear. induction (combine (seq 0 (length l)) l) as [|a c IH]; [reflexivity|].
    cbn. f_equal. exact IH.
Qed.

Lemma nth_map_seq0 {A} (g : nat -> A) n k d : k < n -> nth k (map g (seq 0 n)) d = g k.
Proof.
  intro H. rewrite nth_indep with (d' := g 0) by (rewrite map_length, seq_length; exact H).
  rewrite map_nth, seq_nth by exact H. reflexivity.
Qed.
Lemma map_nth_seq0 {A} (l : list A) d : map (fun i => nth i l d) (seq 0 (length l)) = l.
Proof.
  apply nth_ext with (d := d) (d' := d); [rewrite map_length, seq_length; reflexivity|].
  intros k Hk. rewrite map_length, seq_length in Hk. rewrite (nth_map_seq0 (fun i => nth i l d)) by exact Hk. reflexivity.
Qed.

Section Par.
  Context {N : Num} {E : Env N}.

  (** The objective is a function: no state, no exception. *)
  Variable f : vec -> T.
  Hypothesis PURE : forall x w, @e_fun N E x w = (inl (f x), w).

  Definition evs_of (X : list vec) : list event := map (fun x => EEval x (inl (f x))) X.

  Section Env.
    Context {E2 : Env N}.
    Hypothesis PURE2 : forall x w, @e_fun N E2 x w = (inl (f x), w).

    Lemma call_pure x (s : @St N E2) :
      call_fun x s = (inl (f x), mkSt (rs s) (tr s ++ [EEval x (inl (f x))]) (argbuf s)).
    Proof. unfold call_fun. rewrite PURE2. reflexivity. Qed.

    Lemma serial_pure X : forall (s : @St N E2),
      eval_serial X s = (inl (map f X), mkSt (rs s) (tr s ++ evs_of X) (argbuf s)).
    Proof.
      induction X as [|x X IH]; intro s; unfold eval_serial in *; cbn.
      - destruct s. cbn. rewrite app_nil_r. reflexivity.
      - unfold bind. rewrite call_pure, IH. cbn. rewrite <- app_assoc. reflexivity.
    Qed.

    Lemma fill_pure X idx : forall acc (s : @St N E2),
      foldM (fun g i => y <- call_fun (nth i X []) ;; ret (upd i y g)) acc idx s
      = (inl (fold_left (fun g i => upd i (f (nth i X [])) g) idx acc),
         mkSt (rs s) (tr s ++ evs_of (map (fun i => nth i X []) idx)) (argbuf s)).
    Proof.
      induction idx as [|i idx IH]; intros acc s; cbn.
      - destruct s. cbn. rewrite app_nil_r. reflexivity.
      - unfold bind at 1. unfold bind at 1. rewrite call_pure. cbn. rewrite IH. cbn.
        rewrite <- app_assoc. reflexivity.
    Qed.
  End Env.

  Lemma fill_length X idx : forall acc,
    length (fold_left (fun g i => upd i (f (nth i X [])) g) idx acc) = length acc.
  Proof.
    induction idx as [|i idx IH]; intro acc; cbn; [reflexivity|]. rewrite IH.
    apply upd_length.
  Qed.
  Lemma fill_nth X idx k : forall acc, k < length acc ->
    nth k (fold_left (fun g i => upd i (f (nth i X [])) g) idx acc) n0
    = if existsb (Nat.eqb k) idx then f (nth k X []) else nth k acc n0.
  Proof.
    induction idx as [|i idx IH]; intros acc Hk; cbn; [reflexivity|].
    rewrite IH by (rewrite upd_length; exact Hk).
    destruct (Nat.eqb_spec k i) as [->|Hki]; cbn.
    - destruct (existsb _ idx); [reflexivity|]. apply upd_nth_same. exact Hk.
    - destruct (existsb _ idx); [reflexivity|]. apply upd_nth_other. auto.
  Qed.

  Lemma fill_all X idx : (forall k, k < length X -> In k idx) ->
    fold_left (fun g i => upd i (f (nth i X [])) g) idx (repeat n0 (length X)) = map f X.
  Proof.
    intro H. apply nth_ext with (d := n0) (d' := f []).
    - rewrite fill_length, repeat_length, map_length. reflexivity.
    - intros k Hk. rewrite fill_length, repeat_length in Hk.
      rewrite fill_nth by (rewrite repeat_length; exact Hk).
      assert (HE : existsb (Nat.eqb k) idx = true).
      { apply existsb_exists. exists k. split; [apply H, Hk | apply Nat.eqb_refl]. }
      rewrite HE. symmetry. apply map_nth.
  Qed.

  (** ** MPI *)
  Lemma in_arange rank size n k :
    rank < size -> In k (arange rank n size) <-> k < n /\ k mod size = rank.
  Proof.
    intro HR. unfold arange. rewrite filter_In, in_seq, andb_true_iff, Nat.leb_le, Nat.eqb_eq.
    split.
    - intros [[_ Hk] [Hle Hm]]. split; [lia|].
      replace k with (rank + (k - rank)) at 1 by lia.
      rewrite <- Nat.add_mod_idemp_r by lia. rewrite Hm, Nat.add_0_r. apply Nat.mod_small. lia.
    - intros [Hk Hm]. assert (Hle : rank <= k) by (rewrite <- Hm; apply Nat.mod_le; lia).
      split; [lia|]. split; [exact Hle|].
      rewrite (Nat.div_mod k size) by lia. rewrite Hm.
      replace (size * (k / size) + rank - rank) with (k / size * size) by lia.
      apply Nat.mod_mul. lia.
  Qed.

  Lemma arange_share {A} rank size (X : list A) d : rank < size ->
    map (fun i => nth i X d) (arange rank (length X) size) = share rank size X.
  Proof.
    intro HR. unfold share.
    assert (HA : arange rank (length X) size
                 = filter (fun i => i mod size =? rank) (seq 0 (length X))).
    { unfold arange. apply filter_ext_in. intros k Hk. apply in_seq in Hk.
      destruct (Nat.eqb_spec (k mod size) rank) as [He|He].
      - assert (H : In k (arange rank (length X) size)) by (apply in_arange; [exact HR|lia]).
        unfold arange in H. apply filter_In in H. apply H.
      - destruct ((rank <=? k) && ((k - rank) mod size =? 0)) eqn:Eb; [|reflexivity].
        exfalso. apply He.
        assert (H : In k (arange rank (length X) size))
          by (unfold arange; apply filter_In; split; [apply in_seq; lia | exact Eb]).
        apply in_arange in H; [apply H | exact HR]. }
    rewrite HA.
    assert (G : forall (Y pre : list A), X = pre ++ Y ->
      map (fun i => nth i X d) (filter (fun i => i mod size =? rank) (seq (length pre) (length Y)))
      = map snd (filter (fun p => fst p mod size =? rank)
                        (combine (seq (length pre) (length Y)) Y))).
    { induction Y as [|y Y IH]; intros pre HX; [reflexivity|]. cbn [length seq combine filter fst].
      assert (HI : X = (pre ++ [y]) ++ Y) by (rewrite <- app_assoc; exact HX).
      specialize (IH (pre ++ [y]) HI). rewrite app_length, Nat.add_1_r in IH.
      destruct (length pre mod size =? rank); [|exact IH]. cbn [map snd]. f_equal; [|exact IH].
      rewrite HX, app_nth2, Nat.sub_diag by lia. reflexivity. }
    exact (G X [] eq_refl).
  Qed.

  (** Adding the float 0.0 changes nothing (it changes the float -0.0). *)
  Definition adds_zero (v : T) : Prop := nadd n0 v = v /\ nadd v n0 = v.

  Lemma tsum_zero t c : adds_zero n0 -> (forall r, In r (leaves t) -> c r = n0) -> tsum t c = n0.
  Proof.
    intro HZ. induction t as [r|l IHl r IHr]; cbn; intro H; [apply H; left; reflexivity|].
    rewrite IHl, IHr; try (intros; apply H, in_or_app; auto). apply HZ.
  Qed.
  Lemma tsum_one t c k v : adds_zero n0 -> adds_zero v -> NoDup (leaves t) -> In k (leaves t) ->
    c k = v -> (forall r, In r (leaves t) -> r <> k -> c r = n0) -> tsum t c = v.
  Proof.
    intros HZ HV. induction t as [r|l IHl r IHr]; cbn; intros HN HI Hk H.
    - destruct HI as [->|[]]. exact Hk.
    - assert (HD : forall x, In x (leaves l) -> ~ In x (leaves r)).
      { intros x H1 H2. clear -HN H1 H2. induction (leaves l) as [|a q IH]; [destruct H1|].
        inversion HN; subst. destruct H1 as [->|H1]; [|auto].
        apply H3, in_or_app. auto. }
      assert (HL : NoDup (leaves l)).
      { clear -HN. induction (leaves l); [constructor|]. inversion HN; subst.
        constructor; [intro; apply H1, in_or_app; auto | auto]. }
      assert (HR : NoDup (leaves r)).
      { clear -HN. induction (leaves l); [exact HN|]. inversion HN; subst. auto. }
      apply in_app_or in HI. destruct HI as [HI|HI].
      + rewrite IHl; auto; [|intros; apply H; [apply in_or_app|]; auto].
        rewrite (tsum_zero r); [apply HV | exact HZ |].
        intros x Hx. apply H; [apply in_or_app; auto|]. intros ->. exact (HD k HI Hx).
      + rewrite IHr; auto; [|intros; apply H; [apply in_or_app|]; auto].
        rewrite (tsum_zero l); [apply HV | exact HZ |].
        intros x Hx. apply H; [apply in_or_app; auto|]. intros ->. exact (HD k Hx HI).
  Qed.

  (** What rank [r] contributes to the sum at position [i]. *)
  Definition contrib (size : nat) (X : matrix) (r i : nat) : T :=
    if (i mod size =? r)%nat then f (nth i X []) else n0.

  (** MPI: the broadcast gives every rank the points of the root, the reduction is the sum of
      what this rank and the others contributed, added in some order (which may depend on the
      call and on the position). *)
  Record MpiSum (rank size : nat) (bc : nat -> matrix -> matrix)
      (ar : nat -> matrix -> vec -> vec) : Prop := {
    ms_rank : rank < size;
    ms_bc : forall n X, bc n X = X;
    ms_ar : exists tree : nat -> nat -> rtree,
        (forall n i, Permutation (leaves (tree n i)) (seq 0 size)) /\
        forall n X own, ar n X own =
          map (fun i => tsum (tree n i) (fun r => if (r =? rank)%nat then nth i own n0
                                                  else contrib size X r i))
              (seq 0 (length own)) }.

  Lemma reduce_all rank size bc ar n X :
    MpiSum rank size bc ar -> adds_zero n0 -> (forall x, adds_zero (f x)) ->
    ar n X (fold_left (fun g i => upd i (f (nth i X [])) g) (arange rank (length X) size)
                      (repeat n0 (length X))) = map f X.
  Proof.
    intros [HR _ [tree [HT HA]]] HZ HF. rewrite HA, fill_length, repeat_length.
    apply nth_ext with (d := n0) (d' := f []); [rewrite !map_length, seq_length; reflexivity|].
    intros k Hk. rewrite map_length, seq_length in Hk.
    rewrite nth_map_seq0 by exact Hk. rewrite map_nth.
    assert (HP := HT n k).
    apply tsum_one with (k := k mod size); auto.
    - apply (Permutation_NoDup (Permutation_sym HP)), seq_NoDup.
    - apply (Permutation_in _ (Permutation_sym HP)), in_seq.
      assert (k mod size < size) by (apply Nat.mod_upper_bound; lia). lia.
    - rewrite fill_nth by (rewrite repeat_length; exact Hk).
      destruct (Nat.eqb_spec (k mod size) rank) as [He|He].
      + assert (Hin : existsb (Nat.eqb k) (arange rank (length X) size) = true).
        { apply existsb_exists. exists k. split; [|apply Nat.eqb_refl].
          apply in_arange; auto. }
        rewrite Hin. reflexivity.
      + unfold contrib. rewrite Nat.eqb_refl. reflexivity.
    - intros r _ Hr. rewrite fill_nth by (rewrite repeat_length; exact Hk).
      destruct (Nat.eqb_spec r rank) as [->|He].
      + assert (Hin : existsb (Nat.eqb k) (arange rank (length X) size) = false).
        { destruct (existsb _ _) eqn:Ex; [|reflexivity]. apply existsb_exists in Ex.
          destruct Ex as [j [Hj He]]. apply Nat.eqb_eq in He. subst j.
          apply in_arange in Hj; [|exact HR]. destruct Hj. congruence. }
        rewrite Hin, nth_repeat. reflexivity.
      + unfold contrib. destruct (Nat.eqb_spec (k mod size) r); [congruence | reflexivity].
  Qed.

  (** ** The evaluation of a population, in the two environments *)
  Fixpoint bcasts (l : list event) : list matrix :=
    match l with [] => [] | EBcast X :: t => X :: bcasts t | _ :: t => bcasts t end.

  (** The traces: the same calls of the callback; in joblib mode the same points in some order;
      in MPI mode the broadcast populations are exactly the populations of the serial run, and
      the points this rank evaluated are its share of them. *)
  Definition same_calls (m : Mode) (rank size : nat) (l1 l2 : list event) : Prop :=
    cbs l1 = cbs l2 /\
    match m with
    | Serial => points l1 = points l2
    | Joblib => Permutation (points l1) (points l2)
    | Mpi => points l1 = concat (bcasts l2) /\
             points l2 = concat (map (share rank size) (bcasts l2))
    end.

  Lemma cbs_app l1 l2 : cbs (l1 ++ l2) = cbs l1 ++ cbs l2.
  Proof. induction l1 as [|[]]; cbn; congruence. Qed.
  Lemma points_app l1 l2 : points (l1 ++ l2) = points l1 ++ points l2.
  Proof. induction l1 as [|[]]; cbn; congruence. Qed.
  Lemma bcasts_app l1 l2 : bcasts (l1 ++ l2) = bcasts l1 ++ bcasts l2.
  Proof. induction l1 as [|[]]; cbn; congruence. Qed.
  Lemma cbs_evals X : cbs (evs_of X) = [].
  Proof. induction X; cbn; auto. Qed.
  Lemma bcasts_evals X : bcasts (evs_of X) = [].
  Proof. induction X; cbn; auto. Qed.
  Lemma points_evals X : points (evs_of X) = X.
  Proof. induction X; cbn; [reflexivity | f_equal; assumption]. Qed.

  Lemma same_calls_cb m rank size l1 l2 X st r :
    same_calls m rank size l1 l2 ->
    same_calls m rank size (l1 ++ [ECb X st r]) (l2 ++ [ECb X st r]).
  Proof.
    intros [H1 H2]. unfold same_calls.
    rewrite !cbs_app, !points_app, !bcasts_app. cbn. rewrite !app_nil_r.
    split; [rewrite H1; reflexivity | exact H2].
  Qed.
  Lemma same_calls_ev m rank size l1 l2 x r : m <> Mpi ->
    same_calls m rank size l1 l2 ->
    same_calls m rank size (l1 ++ [EEval x r]) (l2 ++ [EEval x r]).
  Proof.
    intros HM [H1 H2]. unfold same_calls. rewrite !cbs_app, !points_app, !bcasts_app. cbn.
    rewrite !app_nil_r. split; [exact H1|].
    destruct m; [congruence | apply Permutation_app_tail, H2 | contradiction].
  Qed.

  Section Two.
    Variables (sched : nat -> @RNG N E * @US N E -> list nat) (rank size : nat)
              (bc : nat -> matrix -> matrix) (ar : nat -> matrix -> vec -> vec).
    Let E' : Env N := vary E sched rank size bc ar (@e_empty N E).

    (** What mode [m] asks of its environment. *)
    Definition mode_ok (m : Mode) : Prop :=
      match m with
      | Serial => True
      | Joblib => forall n w, Permutation (sched n w) (seq 0 n)
      | Mpi => MpiSum rank size bc ar /\ adds_zero n0 /\ forall x, adds_zero (f x)
      end.

    Lemma rel_eval m X : mode_ok m ->
      rel (RS sched rank size bc ar (@e_empty N E) (same_calls m rank size))
          (@eval_pop N E Serial X) (@eval_pop N E' m X) eq.
    Proof.
      intros HM s1 s2 [R1 [R2 [R3 R4]]].
      assert (PURE2 : forall x w, @e_fun N E' x w = (inl (f x), w)) by exact PURE.
      assert (H1 : @eval_pop N E Serial X s1 =
        (inl (X, map f X), mkSt (rs s1) (tr s1 ++ evs_of X) (argbuf s1))).
      { cbn [eval_pop]. unfold bind. rewrite (serial_pure PURE). reflexivity. }
      rewrite H1. clear H1. unfold RS. destruct m.
      - assert (H2 : @eval_pop N E' Serial X s2 =
          (inl (X, map f X), mkSt (rs s2) (tr s2 ++ evs_of X) (argbuf s2))).
        { cbn [eval_pop]. unfold bind. rewrite (serial_pure PURE2). reflexivity. }
        rewrite H2. cbn.
        repeat split; auto; rewrite ?cbs_app, ?points_app; congruence.
      - assert (HP := HM (length X) (rs s2)).
        assert (H2 : @eval_pop N E' Joblib X s2 =
          (inl (X, map f X),
           mkSt (rs s2) (tr s2 ++ evs_of (map (fun i => nth i X []) (sched (length X) (rs s2))))
                (argbuf s2))).
        { cbn [eval_pop]. unfold bind, eval_joblib, get_sched, bind at 1.
          rewrite (fill_pure PURE2), fill_all; [reflexivity|].
          intros k Hk. apply (Permutation_in _ (Permutation_sym HP)), in_seq. vlia. }
        rewrite H2. cbn. repeat split; auto.
        + rewrite !cbs_app, !cbs_evals. congruence.
        + rewrite !points_app, !points_evals. apply Permutation_app; [exact R4|].
          apply Permutation_trans with (map (fun i => nth i X []) (seq 0 (length X))).
          * rewrite map_nth_seq0. apply Permutation_refl.
          * apply Permutation_map, Permutation_sym, HP.
      - destruct HM as [HS [HZ HF]]. assert (HR := ms_rank _ _ _ _ HS).
        assert (H2 : @eval_pop N E' Mpi X s2 =
          (inl (X, map f X),
           mkSt (rs s2) (((tr s2 ++ [EBcast X]) ++ evs_of (share rank size X)) ++ [EReduce (map f X)])
                (argbuf s2))).
        { cbn [eval_pop]. unfold eval_mpi, mpi_bcast, bind at 1. change (@e_bcast N E') with bc.
          rewrite (ms_bc _ _ _ _ HS). change (@e_rank N E') with rank.
          change (@e_mpisize N E') with size.
          unfold bind at 1. rewrite (fill_pure PURE2). unfold mpi_allreduce, bind at 1.
          change (@e_allreduce N E') with ar.
          rewrite (reduce_all _ _ _ _ _ _ HS HZ HF). rewrite arange_share by exact HR.
          reflexivity. }
        rewrite H2. cbn. destruct R4 as [R4 R5].
        repeat split; auto.
        + rewrite !cbs_app, !cbs_evals. cbn. rewrite !app_nil_r. exact R3.
        + rewrite !points_app, !points_evals, !bcasts_app, bcasts_evals. cbn.
          rewrite ?app_nil_r, R4. symmetry. eapply eq_trans; [apply concat_app|].
          cbn. rewrite app_nil_r. reflexivity.
        + rewrite !points_app, points_evals, !bcasts_app, bcasts_evals. cbn.
          rewrite ?app_nil_r, map_app, R5. symmetry. eapply eq_trans; [apply concat_app|].
          cbn. rewrite app_nil_r. reflexivity.
    Qed.
  End Two.
End Par.

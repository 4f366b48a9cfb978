(** Feasible points: bounds, the Latin Hypercube, and C10. *)
From Coq Require Import Permutation.
From Verif Require Import Base Num Env Common DE Hoare EvalRules Gen Runs Inst Laws Safe.

Ltac vlia := unfold matrix, vec in *; lia.

(** ** Specification *)
Section Box.
  Context {A : Arith}.

  (** All points the objective was called with, in order. *)
  Fixpoint points (t : list event) : list vec :=
    match t with [] => [] | EEval x _ :: t => x :: points t | _ :: t => points t end.

  (** [x] has one coordinate per row of [bounds], none below its lower and none above its upper
      bound (a NaN is neither). *)
  Definition Box (bounds : matrix) (x : vec) : Prop :=
    length x = length bounds /\
    forall i, i < length bounds ->
      nltb (nth i x n0) (nth 0 (nth i bounds []) n0) = false /\
      nltb (nth 1 (nth i bounds []) n0) (nth i x n0) = false.

  (** The population a callback sees, and the best point reported to it. *)
  Definition CbBox (bounds : matrix) (X : matrix) (st : CbState) : Prop :=
    Forall (Box bounds) X /\ Box bounds (cb_x st).

  Definition lows (rows : matrix) : vec := map (fun r => nth 0 r n0) rows.
  Definition ups (rows : matrix) : vec := map (fun r => nth 1 r n0) rows.

  (** ** The same, coordinate by coordinate *)
  Definition inb (b : T * T) (v : T) : Prop := nltb v (fst b) = false /\ nltb (snd b) v = false.

  Lemma Box_iff rows x : Box rows x <-> Forall2 inb (combine (lows rows) (ups rows)) x.
  Proof.
    unfold Box, lows, ups. revert x. induction rows as [|r rows IH]; intros [|v x]; cbn.
    - split; [constructor|]. intros _. split; [reflexivity|lia].
    - split; [intros [H _]; discriminate|intros H; inversion H].
    - split; [intros [H _]; discriminate|intros H; inversion H].
    - split.
      + intros [H1 H2]. constructor; [apply (H2 0); lia|]. apply IH. split; [lia|].
        intros i Hi. apply (H2 (S i)). lia.
      + intros H. inversion H; subst. apply IH in H5. destruct H5 as [H5 H6]. split; [lia|].
        intros [|i] Hi; [exact H3|apply H6; lia].
  Qed.

  Lemma points_app t1 t2 : points (t1 ++ t2) = points t1 ++ points t2.
  Proof. induction t1 as [|[] t IH]; cbn; congruence. Qed.
  Lemma points_length t : length (points t) = ncalls t.
  Proof. induction t as [|[x [y|n]|? ? ?|? ? ?|?|?] t IH]; cbn; congruence. Qed.
End Box.

Section SafeExec.
  Context {N : Num} {E : Env N}.

  Lemma shown_points Pe Pc t x : Forall (shown Pe Pc) t -> In x (points t) -> Pe x.
  Proof.
    induction t as [|e t IH]; cbn; [tauto|]. intros H. pose proof (Forall_inv H) as He.
    apply Forall_inv_tail in H. destruct e; cbn in *; auto. intros [<-|Hx]; auto.
  Qed.
  Lemma shown_cbs Pe Pc t X st : Forall (shown Pe Pc) t -> In (X, st) (cbs t) -> Pc X st.
  Proof.
    induction t as [|e t IH]; cbn; [tauto|]. intros H. pose proof (Forall_inv H) as He.
    apply Forall_inv_tail in H. destruct e as [? [?|?]| | | |]; cbn in *; auto.
    intros [Hx|Hx]; [injection Hx as <- <-|]; auto.
  Qed.

  Lemma safe_exec {A} Pe Pc (m : M A) Q w a0 r st' :
    safe Pe Pc m Q -> exec m w a0 = (r, st') ->
    (forall x, In x (points (tr st')) -> Pe x) /\
    (forall X st, In (X, st) (cbs (tr st')) -> Pc X st) /\
    (forall a, r = inl a -> Q a).
  Proof.
    intros H Hx. destruct (H (mkSt w [] a0)) as (e & He & H1 & H2). unfold exec in Hx. rewrite Hx in He, H2.
    cbn in *. rewrite He. split; [|split]; auto.
    - intros x. eapply shown_points; eauto.
    - intros X st. eapply shown_cbs; eauto.
  Qed.

  Lemma late_exec {A} Pe Pc n (m : M A) Q w a0 r st' :
    late Pe Pc n m Q -> exec m w a0 = (r, st') ->
    forall k x, n <= k -> nth_error (points (tr st')) k = Some x -> Pe x.
  Proof.
    intros H Hx k x Hk Hn. destruct (H (mkSt w [] a0)) as (e1 & e2 & He & H1 & H2 & _).
    unfold exec in Hx. rewrite Hx in He. cbn in He. rewrite He, points_app, nth_error_app2 in Hn.
    - apply nth_error_In in Hn. eapply shown_points; eauto.
    - rewrite points_length. lia.
  Qed.

  Lemma eval_kind_mpi sync workers backend :
    eval_kind sync workers backend = inl Mpi -> backend = Some "mpi"%string.
  Proof.
    intros Hk. unfold eval_kind, wrapper_kind in Hk.
    set (b := match backend with
              | Some b => if String.eqb b "" then "threading"%string else b
              | None => "threading"%string end) in *.
    assert (Hb : b = "mpi"%string).
    { destruct (in_prefer b && _); destruct sync; try discriminate.
      - destruct (in_prefer b); [discriminate|].
        destruct (String.eqb b "mpi") eqn:Hb; [apply String.eqb_eq, Hb|discriminate].
      - destruct (String.eqb b "mpi") eqn:Hb; [apply String.eqb_eq, Hb|discriminate]. }
    unfold b in Hb. destruct backend as [b0|]; [|discriminate].
    destruct (String.eqb b0 ""); [discriminate|congruence].
  Qed.

  Lemma safe_eval_kindM Pe Pc (HE : EnvOK) sync workers backend (P : vec -> Prop) :
    (backend = Some "mpi"%string -> BcastKeeps P) ->
    safe Pe Pc (eval_kindM sync workers backend)
      (fun m => ModeKeeps P m /\ eval_kind sync workers backend = inl m).
  Proof.
    intros H. unfold eval_kindM. destruct (eval_kind sync workers backend) as [m|e] eqn:Hk; [|apply safe_raise].
    apply safe_ret. split; [|reflexivity]. split; [apply EnvOK_mode, HE|].
    intros ->. apply H. eapply eval_kind_mpi, Hk.
  Qed.

  Lemma safe_check_pop Pe Pc a : safe Pe Pc (check_pop a) (fun _ => PopArgsOK a).
  Proof.
    intros s. pose proof (wp_check_pop a (fun _ s' => PopArgsOK a /\ s' = s) s (fun H => conj H eq_refl)) as H.
    assert (Hs : snd (check_pop a s) = s).
    { unfold check_pop, raise_if, bind. repeat (destruct (match _ with Some _ => _ | None => _ end) || destruct (negb _) || destruct (_ <? _)%Z; cbn); reflexivity. }
    exists []. rewrite app_nil_r, Hs. split; [reflexivity|]. split; [constructor|].
    intros u Hu. unfold wp in H. destruct (check_pop a s) as [[v|e] s1]; [apply H|discriminate].
  Qed.

  Lemma safe_seed_and_cb Pe Pc a : safe Pe Pc (seed_and_cb a) (fun _ => True).
  Proof.
    unfold seed_and_cb. eapply safe_bind; [apply (safe_seed _ _ _ (fun _ => True)); exact I|]. intros _ _.
    apply safe_raise_if; auto.
  Qed.

  Lemma safe_unpack Pe Pc b : safe Pe Pc (unpack_bounds b)
    (fun lu => exists rows, b = D2 2 rows /\ lu = (lows rows, ups rows)).
  Proof.
    destruct b as [x|v|c m]; cbn; try apply safe_raise.
    destruct c as [|[|[|c]]]; try apply safe_raise. apply safe_ret. exists m; auto.
  Qed.

  (** ** The Latin Hypercube *)

  (** The coordinate that the individual of stratum [k] gets, for the draw [v]. *)
  Definition lhs_point (p k : nat) (v lo hi : T) : T :=
    nadd (nmul (nadd (ndiv v (nN p)) (lin p k)) (nmul (nlit 5 (-1)) (nsub hi lo)))
         (nmul (nlit 5 (-1)) (nadd hi lo)).

  (** [C] holds of every coordinate the Latin Hypercube can produce for the bounds [b]. *)
  Definition LhsLaw (C : T * T -> T -> Prop) (p : nat) (b : T * T) : Prop :=
    forall v k, nleb n0 v = true -> nltb v n1 = true -> k < p -> C b (lhs_point p k v (fst b) (snd b)).

  Lemma Forall2_nth {A B} (R : A -> B -> Prop) l1 l2 da db :
    length l1 = length l2 -> (forall i, i < length l1 -> R (nth i l1 da) (nth i l2 db)) -> Forall2 R l1 l2.
  Proof.
    revert l2. induction l1 as [|a l1 IH]; intros [|b l2] Hl H; try discriminate; constructor.
    - apply (H 0). cbn; lia.
    - apply IH; [cbn in Hl; lia|]. intros i Hi. apply (H (S i)). cbn; lia.
  Qed.

  Lemma safe_lhs Pe Pc (HE : EnvOK) (C : T * T -> T -> Prop) p d lower upper :
    length lower = d -> length upper = d -> Forall (LhsLaw C p) (combine lower upper) ->
    safe Pe Pc (lhs p d lower upper)
      (fun X => length X = p /\ Forall (Forall2 C (combine lower upper)) X).
  Proof.
    intros Hl Hu HC. unfold lhs. eapply safe_bind; [apply safe_rand_mat, HE|]. intros x0 [Hx0 HF].
    eapply safe_bind.
    { apply (safe_replicateM _ _ d (perm p) (fun pi => Permutation pi (seq 0 p))). apply safe_draw. intros r. apply (eo_perm HE). }
    intros perms [Hp HP]. apply safe_ret. split; [rewrite !map_length, seq_length; reflexivity|].
    apply Forall_forall. intros y Hy. apply in_map_iff in Hy. destruct Hy as (row & <- & Hrow).
    apply in_map_iff in Hrow. destruct Hrow as (k & <- & Hk). apply in_seq in Hk.
    assert (Hlen : length (map2 (fun pi j => nth j (nth (nth k pi 0)
        (map2 (fun row k => map (fun v => nadd (ndiv v (nN p)) (lin p k)) row) x0 (seq 0 p)) []) n0) perms (seq 0 d)) = d).
    { rewrite map2_length, seq_length, Hp. vlia. }
    apply Forall2_nth with (da := (n0, n0)) (db := n0).
    { unfold lhs_scale. rewrite map3_length, Hlen, combine_length. vlia. }
    intros i Hi. rewrite combine_length, Hl, Hu in Hi.
    unfold lhs_scale. rewrite map3_nth with (a := n0) (b := n0) (c := n0) by vlia.
    rewrite map2_nth with (a := []) (b := 0) by (rewrite ?seq_length; vlia).
    rewrite nth_seq0 by vlia.
    pose proof (Forall_nth_lt _ perms [] i HP ltac:(vlia)) as Hpi.
    assert (Hs : nth k (nth i perms []) 0 < p).
    { assert (In (nth k (nth i perms []) 0) (seq 0 p)).
      { eapply Permutation_in; [exact Hpi|]. apply nth_In. rewrite (Permutation_length Hpi), seq_length. vlia. }
      apply in_seq in H. vlia. }
    set (kk := nth k (nth i perms []) 0) in *.
    rewrite map2_nth with (a := []) (b := 0) by (rewrite ?seq_length; vlia).
    rewrite nth_seq0 by vlia.
    destruct (Forall_nth_lt _ x0 [] kk HF ltac:(vlia)) as [Hrl Hr].
    rewrite nth_indep with (d' := (fun v => nadd (ndiv v (nN p)) (lin p kk)) n0) by (rewrite map_length; vlia).
    rewrite (map_nth (fun v => nadd (ndiv v (nN p)) (lin p kk))).
    destruct (Forall_nth_lt _ _ n0 i Hr ltac:(vlia)) as [Hv0 Hv1].
    rewrite combine_nth by vlia.
    pose proof (Forall_nth_lt _ _ (n0, n0) i HC ltac:(rewrite combine_length; vlia)) as HL.
    rewrite combine_nth in HL by vlia. apply HL; auto.
  Qed.
End SafeExec.

(** ** DE *)
Section FeasDE.
  Context {N : Num} {E : Env N} {HO : OrdLaws num_arith}.
  Context (HE : EnvOK).

  Lemma nth_combine_fst {A B} (l1 : list A) (l2 : list B) : length l1 = length l2 -> map fst (combine l1 l2) = l1.
  Proof. revert l2; induction l1; intros [|b l2] H; cbn in *; try discriminate; f_equal; auto. Qed.

  Lemma safe_de_cons Pe Pc lower upper u : length u = length (combine lower upper) ->
    Forall2 UniformLaw lower upper ->
    safe Pe Pc (de_cons DERandom lower upper u) (Forall2 inb (combine lower upper)).
  Proof.
    intros Hu HU. cbn. eapply safe_bind; [apply safe_uniform_vec; [exact HE|exact HU]|].
    intros r Hr. apply safe_ret. clear HU. revert u Hu Hr. generalize (combine lower upper) as bs.
    intros bs u Hu Hr. revert u Hu. induction Hr as [|b v bs r [Hb1 Hb2] Hr IH]; intros [|x u] Hu; try discriminate.
    - constructor.
    - cbn. constructor; [|apply IH; cbn in Hu; lia].
      destruct (nltb x (fst b)) eqn:H1; [split; apply le_nlt; assumption|].
      destruct (nltb (snd b) x) eqn:H2; cbn; [split; apply le_nlt; assumption|]. split; assumption.
  Qed.

  Lemma del_lt p i j : In j (del i (seq 0 p)) -> j < p.
  Proof. intros H. apply del_In, in_seq in H. lia. Qed.

  Lemma del_len_ge {A} i (l : list A) : length l - 1 <= length (del i l).
  Proof. revert l. induction i; intros [|a l]; cbn; try lia. specialize (IHi l). lia. Qed.

  Lemma safe_delete_shuffle Pe Pc p i : 0 < p ->
    safe Pe Pc (delete_shuffle p i) (Forall (fun j => j < p)).
  Proof.
    intros Hp. unfold delete_shuffle.
    eapply safe_bind.
    { apply (safe_draw _ _ _ (fun pi => Permutation pi (seq 0 (p - 1)))). intros r. apply (eo_perm HE). }
    intros pi Hpi. apply safe_ret. apply Forall_forall. intros j Hj. apply in_map_iff in Hj.
    destruct Hj as (k & <- & Hk). apply (Permutation_in _ Hpi), in_seq in Hk.
    apply del_lt with i. apply nth_In. pose proof (del_len_ge i (seq 0 p)) as H. rewrite seq_length in H. lia.
  Qed.

  Lemma vadd_len (u v : vec) d : length u = d -> length v = d -> length (vadd u v) = d.
  Proof. intros. unfold vadd. rewrite map2_length. lia. Qed.
  Lemma vsub_len (u v : vec) d : length u = d -> length v = d -> length (vsub u v) = d.
  Proof. intros. unfold vsub. rewrite map2_length. lia. Qed.
  Lemma vscale_len a (v : vec) d : length v = d -> length (vscale a v) = d.
  Proof. intros. unfold vscale. rewrite map_length. assumption. Qed.

  Lemma pick_len is (X : matrix) k x d : Forall (fun j => j < length X) is -> Forall (fun r : vec => length r = d) X ->
    pick is X k = Some x -> length x = d.
  Proof.
    intros Hi HX. unfold pick. destruct (nth_error is k) as [j|] eqn:Hj; [|discriminate].
    intros H; injection H as <-. apply nth_error_In in Hj. rewrite Forall_forall in Hi.
    apply (Forall_nth_lt _ X [] j HX). apply Hi, Hj.
  Qed.

  Lemma mutate_len st is F (X : matrix) gb v d : Forall (fun j => j < length X) is ->
    Forall (fun r : vec => length r = d) X -> length gb = d ->
    mutate st is F X gb = Some v -> length v = d.
  Proof.
    intros Hi HX Hg. unfold mutate.
    destruct st; repeat match goal with
      |- context [pick is X ?k] => let H := fresh "K" in destruct (pick is X k) eqn:H;
         [apply (pick_len _ _ _ _ _ Hi HX) in H|discriminate] end;
      intros H; injection H as <-; repeat first [apply vadd_len|apply vsub_len|apply vscale_len]; assumption.
  Qed.

  Lemma crossover_len CR ir (r1 V x : vec) d : length r1 = d -> length V = d -> length x = d ->
    length (crossover CR ir r1 V x) = d.
  Proof. intros. unfold crossover. rewrite map3_length, combine_length, seq_length. lia. Qed.

  (** Trial vectors are feasible, whatever the population. *)
  Definition DEOk (P : DEParams) : Prop :=
    de_con P = DERandom /\ length (de_lower P) = de_d P /\ length (de_upper P) = de_d P /\
    0 < de_p P /\ Forall2 UniformLaw (de_lower P) (de_upper P).
  Definition DEBox (P : DEParams) : vec -> Prop := Forall2 inb (combine (de_lower P) (de_upper P)).
  Definition Len (d : nat) (x : vec) : Prop := length x = d.

  Lemma DEBox_len P x : DEOk P -> DEBox P x -> Len (de_d P) x.
  Proof.
    intros (_ & H1 & H2 & _) Hx. apply Forall2_length in Hx. rewrite combine_length, H1, H2 in Hx.
    unfold Len. lia.
  Qed.

  Lemma safe_de_cands Pe Pc P r1 X gb : DEOk P ->
    length X = de_p P -> Forall (Len (de_d P)) X -> Len (de_d P) gb ->
    length r1 = de_p P -> Forall (Len (de_d P)) r1 ->
    safe Pe Pc (de_cands P r1 X gb) (fun U => length U = de_p P /\ Forall (DEBox P) U).
  Proof.
    intros (Hc & Hl & Hu & Hp & HU) HX HXl Hg Hr Hrl. unfold de_cands.
    eapply safe_bind.
    { apply (safe_mapM _ _ _ _ (fun _ is => Forall (fun j => j < de_p P) is)).
      intros i _. apply safe_delete_shuffle, Hp. }
    intros iss Hi. eapply safe_bind.
    { apply (safe_mapM _ _ _ _ (fun _ v => Len (de_d P) v)). intros is His. apply safe_orelse. intros v Hv.
      eapply mutate_len; [|exact HXl|exact Hg|exact Hv]. rewrite HX.
      clear - Hi His. induction Hi; cbn in His; [tauto|]. destruct His as [<-|His]; auto. }
    intros V HV. eapply safe_bind.
    { apply (safe_replicateM _ _ _ _ (fun _ => True)). destruct (de_d P); [apply safe_raise|].
      apply safe_draw. intros; exact I. }
    intros ir [Hir _].
    assert (HLV : length V = de_p P).
    { apply Forall2_length in Hi. apply Forall2_length in HV. rewrite seq_length in Hi. congruence. }
    assert (HVl : Forall (Len (de_d P)) V).
    { clear - HV. induction HV; constructor; auto. }
    eapply safe_conseq.
    { apply (safe_mapM _ _ _ _ (fun _ v => DEBox P v)). intros u Hin. rewrite Hc.
      apply safe_de_cons; [|exact HU]. rewrite combine_length, Hl, Hu, Nat.min_id.
      apply (In_nth _ _ ([] : vec)) in Hin. destruct Hin as (i & Hi1 & <-).
      rewrite map3_length, combine_length in Hi1.
      rewrite map3_nth with (a := 0) (b := (([] : vec), ([] : vec))) (c := ([] : vec)) (d := ([] : vec)) by (rewrite ?combine_length; vlia).
      rewrite combine_nth by vlia. cbn [fst snd].
      apply crossover_len.
      - apply (Forall_nth_lt _ _ _ _ Hrl). vlia.
      - apply (Forall_nth_lt _ _ _ _ HVl). vlia.
      - apply (Forall_nth_lt _ _ _ _ HXl). vlia. }
    intros U HU'. split.
    - apply Forall2_length in HU'. rewrite <- HU', map3_length, combine_length. vlia.
    - clear - HU'. induction HU'; constructor; auto.
  Qed.

  Lemma safe_de_cand1 Pe Pc P r1 i X gb : DEOk P ->
    length X = de_p P -> Forall (Len (de_d P)) X -> Len (de_d P) gb -> Len (de_d P) r1 -> i < de_p P ->
    safe Pe Pc (de_cand1 P r1 i X gb) (DEBox P).
  Proof.
    intros (Hc & Hl & Hu & Hp & HU) HX HXl Hg Hr Hi. unfold de_cand1.
    eapply safe_bind; [apply safe_delete_shuffle, Hp|]. intros is His. eapply safe_bind.
    { apply (safe_orelse _ _ _ _ (Len (de_d P))). intros v Hv.
      eapply mutate_len; [|exact HXl|exact Hg|exact Hv]. rewrite HX. exact His. }
    intros V HV. eapply safe_bind.
    { destruct (de_d P); [apply safe_raise|]. apply (safe_draw _ _ _ (fun _ => True)). intros; exact I. }
    intros ir _. rewrite Hc. apply safe_de_cons; [|exact HU]. rewrite combine_length, Hl, Hu, Nat.min_id.
    apply crossover_len; [exact Hr|exact HV|]. apply (Forall_nth_lt _ _ _ _ HXl). vlia.
  Qed.

  Lemma sel_x_Forall (P : vec -> Prop) cand cf x xf : Forall P cand -> Forall P x -> Forall P (sel_x cand cf x xf).
  Proof.
    intros H1 H2. unfold sel_x. apply Forall_forall. intros y Hy. apply map2_In in Hy.
    destruct Hy as ((a & fa) & (b & fb) & Ha & Hb & ->). apply in_combine_l in Ha, Hb. cbn.
    rewrite Forall_forall in H1, H2. destruct (nltb fa fb); auto.
  Qed.
  Lemma sel_x_length cand cf x xf : length (sel_x cand cf x xf) =
    Nat.min (Nat.min (length cand) (length cf)) (Nat.min (length x) (length xf)).
  Proof. unfold sel_x. rewrite map2_length, !combine_length. reflexivity. Qed.

  Lemma argmin_from_lt mp ip i (l : vec) : ip < i + length l -> argmin_from mp ip i l < i + length l.
  Proof.
    revert mp ip i. induction l as [|v l IH]; intros mp ip i H; cbn in *; [lia|].
    destruct (nleb mp v); [|destruct (nisnan v)].
    - specialize (IH mp ip (S i)). lia.
    - lia.
    - specialize (IH v i (S i)). lia.
  Qed.
  Lemma argmin_lt (v : vec) : v <> [] -> argmin v < length v.
  Proof.
    destruct v as [|a v]; [congruence|]. intros _. cbn. destruct (nisnan a); [lia|].
    apply (argmin_from_lt a 0 1 v). lia.
  Qed.

  (** The invariant: [Q] holds of all rows and of the best point. *)
  Record DEInv (P : DEParams) (Q : vec -> Prop) (s : DES) : Prop := {
    di_len : length (des_X s) = de_p P;
    di_flen : length (des_pbestfit s) = de_p P;
    di_X : Forall Q (des_X s);
    di_best : Q (des_gbest s) }.

  Section Step.
    Context (P : DEParams) (HP : DEOk P) (Q : vec -> Prop).
    Context (HQB : forall x, DEBox P x -> Q x) (HQL : forall x, Q x -> Len (de_d P) x).
    Context (HM : ModeKeeps (DEBox P) (de_mode P)).
    Context (Pc : matrix -> CbState -> Prop).

    Lemma Forall_QL X : Forall Q X -> Forall (Len (de_d P)) X.
    Proof. apply Forall_impl, HQL. Qed.

    Lemma safe_de_sync it r1 s : DEInv P Q s -> length r1 = de_p P -> Forall (Len (de_d P)) r1 ->
      safe (DEBox P) Pc (de_sync P it r1 s) (fun r => DEInv P Q (fst r)).
    Proof.
      intros [H1 H2 H3 H4] Hr Hrl. unfold de_sync.
      eapply safe_bind; [apply safe_de_cands; auto using Forall_QL|]. intros U [HU1 HU2].
      eapply safe_bind.
      { unfold selection_sync. eapply safe_bind.
        - apply (safe_eval_pop _ _ (DEBox P)); auto.
        - intros [U' f] (HU' & HL & HF & _). cbn [fst snd] in *.
          eapply safe_bind; [apply safe_np_argmin|]. intros i [_ Hne].
          apply (safe_ret _ _ _ (fun sel : SelSync => Forall Q (ss_x sel) /\ length (ss_x sel) = de_p P /\
            length (ss_xfun sel) = de_p P /\ Q (ss_best sel))). cbn.
          assert (HS : Forall Q (sel_x U' f (des_X s) (des_pbestfit s))).
          { apply sel_x_Forall; [|exact H3]. eapply Forall_impl; [|exact HU']. exact HQB. }
          assert (HSL : length (sel_x U' f (des_X s) (des_pbestfit s)) = de_p P).
          { rewrite sel_x_length. vlia. }
          assert (HFL : length (sel_fun f (des_pbestfit s)) = de_p P).
          { unfold sel_fun. rewrite map2_length. vlia. }
          repeat split; auto. apply (Forall_nth_lt _ _ _ _ HS). rewrite HSL, <- HFL. apply argmin_lt, Hne. }
      intros sel (S1 & S2 & S3 & S4). eapply safe_bind.
      { unfold set_alias. apply (safe_when _ _ _ _ (fun _ => True)); [|exact I]. intros _. apply safe_set_arg; exact I. }
      intros _ _. apply safe_ret. cbn. constructor; assumption.
    Qed.

    Lemma safe_de_async it r1 s : DEInv P Q s -> length r1 = de_p P -> Forall (Len (de_d P)) r1 ->
      safe (DEBox P) Pc (de_async P it r1 s) (fun r => DEInv P Q (fst r)).
    Proof.
      intros HI Hr Hrl. unfold de_async. eapply safe_bind.
      - apply (safe_foldM _ _ _ (fun a : DES * option Z => DEInv P Q (fst a))); [exact HI|].
        intros [s1 st] i Hi [H1 H2 H3 H4]. apply in_seq in Hi. unfold de_async_one. cbn [fst] in *.
        eapply safe_bind.
        { apply safe_de_cand1; auto using Forall_QL; [|lia]. apply (Forall_nth_lt _ _ _ _ Hrl). vlia. }
        intros u Hu. eapply safe_bind.
        { unfold selection_async. eapply safe_bind; [apply (safe_call_fun _ _ _ (fun _ => True)); auto|].
          intros y _. apply safe_ret with (Q := fun sel : SelAsync => Forall Q (sa_x sel) /\ length (sa_x sel) = de_p P /\
            length (sa_xfun sel) = de_p P /\ Q (sa_best sel)).
          unfold async_sel. destruct (nleb y _); [|cbn; auto].
          destruct (nleb y _); cbn; rewrite !upd_length; auto using Forall_upd. }
        intros sel (S1 & S2 & S3 & S4). eapply safe_bind.
        { unfold set_alias. apply (safe_when _ _ _ _ (fun _ => True)); [|exact I]. intros _. apply safe_set_arg; exact I. }
        intros _ _. apply safe_ret. cbn. constructor; assumption.
      - intros [s1 st] H. apply safe_ret. exact H.
    Qed.

    Lemma safe_de_step sync it s : DEInv P Q s ->
      safe (DEBox P) Pc (de_step P sync it s) (fun r => DEInv P Q (fst r)).
    Proof.
      intros HI. unfold de_step. eapply safe_bind; [apply safe_rand_mat, HE|]. intros r1 [Hr1 Hr2].
      assert (Hrl : Forall (Len (de_d P)) r1).
      { eapply Forall_impl; [|exact Hr2]. intros x [Hx _]. exact Hx. }
      eapply safe_bind; [apply (safe_raise_if _ _ _ _ (fun _ => True)); auto|]. intros _ _.
      eapply safe_bind.
      { instantiate (1 := fun r => DEInv P Q (fst r)). destruct sync; [apply safe_de_sync|apply safe_de_async]; auto. }
      intros [s1 st] HI1. eapply safe_bind; [apply safe_rec_write|]. intros r _.
      apply safe_ret. destruct HI1. constructor; assumption.
    Qed.
  End Step.

  (** The part of [de] that follows the first evaluation. *)
  Lemma safe_de_tail a sync F CR st mode lower upper p d is_list alias X pfit
      (Q : vec -> Prop) (Pc : matrix -> CbState -> Prop) :
    length lower = d -> length upper = d -> 0 < p -> Forall2 UniformLaw lower upper ->
    ModeKeeps (Forall2 inb (combine lower upper)) mode ->
    (forall x, Forall2 inb (combine lower upper) x -> Q x) -> (forall x, Q x -> Len d x) ->
    (forall X st, Forall Q X -> Q (cb_x st) -> Pc X st) ->
    Forall Q X -> length X = p -> length pfit = p ->
    safe (Forall2 inb (combine lower upper)) Pc
      (when alias (set_arg X) ;;;
       gb <- np_argmin pfit ;;
       let gfit := nth gb pfit n0 in
       let gbest := nth gb X [] in
       nout <- rec_alloc (a_return_all a) (a_verbosity a) (a_popsize a) (a_maxiter a) ;;
       r <- rec_write nout (a_maxiter a) 1 X pfit (gbest, gfit)
              (match nout with Some _ => Some ([], []) | None => None end) ;;
       let P := mkDEParams F CR st DERandom p d lower upper (a_maxiter a) (a_xtol a) (a_ftol a) mode
                           nout alias is_list in
       let s := mkDES X gbest pfit gfit pfit r in
       let D := de_drv P sync in
       when (has_cb a) (call_cb (d_pop D s) (cb_state D 1 s)) ;;;
       drive D (has_cb a) (fuel (a_maxiter a)) 1 s)
      (fun r => Q (r_x r)).
  Proof.
    intros Hl Hu Hp HU HM HQB HQL HPc HX HXl Hf.
    eapply safe_bind; [apply (safe_when _ _ _ _ (fun _ => True)); [intros _; apply safe_set_arg; exact I|exact I]|]. intros _ _.
    eapply safe_bind; [apply safe_np_argmin|]. intros gb [-> Hne].
    assert (Hg : Q (nth (argmin pfit) X [])).
    { apply (Forall_nth_lt _ _ _ _ HX). rewrite HXl, <- Hf. apply argmin_lt, Hne. }
    cbv zeta. eapply safe_bind; [apply safe_rec_alloc|]. intros nout _.
    eapply safe_bind; [apply safe_rec_write|]. intros r _.
    set (P := mkDEParams _ _ _ _ _ _ _ _ _ _ _ _ _ _ _).
    set (s := mkDES _ _ _ _ _ _).
    assert (HP : DEOk P) by (repeat split; auto).
    assert (HI : DEInv P Q s) by (constructor; auto).
    eapply safe_bind.
    { apply (safe_when _ _ _ _ (fun _ => True)); [|exact I]. intros _. apply safe_call_cb; [|exact I].
      apply HPc; [exact HX|exact Hg]. }
    intros _ _. eapply safe_conseq.
    - apply (safe_drive _ _ (de_drv P sync) (DEInv P Q)).
      + intros it s1 HI1. apply safe_de_step; auto.
      + intros it s1 HI1. apply safe_ret; exact HI1.
      + intros it s1 HI1 _. apply HPc; [apply (di_X _ _ _ HI1)|apply (di_best _ _ _ HI1)].
      + exact HI.
    - intros res (s1 & HI1 & -> & _). apply (di_best _ _ _ HI1).
  Qed.

  (** How the population starts: the rows of x0, or the Latin Hypercube. *)
  Definition InitIs (a : Args) (rows : matrix) (Q : vec -> Prop) (C : T * T -> T -> Prop) : Prop :=
    match a_x0 a with
    | Some x => Forall Q (nd_rows x)
    | None => Forall (fun r => LhsLaw C (Z.to_nat (a_popsize a)) (nth 0 r n0, nth 1 r n0)) rows /\
              forall x, Forall2 C (combine (lows rows) (ups rows)) x -> Q x
    end.

  Lemma combine_bounds rows : combine (lows rows) (ups rows) = map (fun r => (nth 0 r n0, nth 1 r n0)) rows.
  Proof. unfold lows, ups. induction rows; cbn; congruence. Qed.
  Lemma lows_len rows : length (lows rows) = length rows.
  Proof. apply map_length. Qed.
  Lemma ups_len rows : length (ups rows) = length rows.
  Proof. apply map_length. Qed.

  Lemma safe_init Pe Pc a rows Q C : a_bounds a = D2 2 rows -> InitIs a rows Q C -> PopArgsOK a ->
    safe Pe Pc (match a_x0 a with
                | Some x => ret (nd_rows x)
                | None => lhs (Z.to_nat (a_popsize a)) (nd_len (a_bounds a)) (lows rows) (ups rows)
                end)
      (fun X => length X = Z.to_nat (a_popsize a) /\ Forall Q X).
  Proof.
    intros Hb HI HA. unfold InitIs in HI. destruct (a_x0 a) as [x|] eqn:Hx.
    - apply safe_ret. split; [|exact HI]. destruct (pao_x0 _ HA _ Hx) as (H1 & _ & H3).
      destruct x; try discriminate. cbn in *. lia.
    - destruct HI as [HI1 HI2]. eapply safe_conseq.
      + apply (safe_lhs _ _ HE C); rewrite ?lows_len, ?ups_len, ?Hb; try reflexivity.
        rewrite combine_bounds. apply Forall_forall. intros b Hin. apply in_map_iff in Hin.
        destruct Hin as (r & <- & Hr). rewrite Forall_forall in HI1. apply HI1, Hr.
      + intros X [H1 H2]. split; [exact H1|]. eapply Forall_impl; [|exact H2]. exact HI2.
  Qed.

  Definition UniformBox (rows : matrix) : Prop :=
    Forall (fun r => UniformLaw (nth 0 r n0) (nth 1 r n0)) rows.
  Lemma UniformBox_iff rows : UniformBox rows -> Forall2 UniformLaw (lows rows) (ups rows).
  Proof. unfold UniformBox, lows, ups. induction 1; cbn; constructor; auto. Qed.

  Lemma BcastKeeps_iff (P Q : vec -> Prop) : (forall x, P x <-> Q x) -> BcastKeeps P -> BcastKeeps Q.
  Proof.
    intros H HB n X HX. eapply Forall_impl; [apply H|]. apply HB. eapply Forall_impl; [|exact HX]. apply H.
  Qed.

  Lemma BcastKeeps_len d : MpiShape -> BcastKeeps (Len d).
  Proof.
    intros [H _] n X HX. specialize (H n X). revert H HX. generalize (e_bcast n X) as Y.
    intros Y; revert X. induction Y as [|y Y IH]; intros [|x X] H HX; try discriminate; constructor.
    - inversion HX; subst. cbn in H. injection H as H _. unfold Len. rewrite H. assumption.
    - inversion HX; subst. cbn in H. injection H as _ H. eapply IH; eauto.
  Qed.

  Section Runs.
    Context (A : DEArgs) (rows : matrix).
    Context (Hb : a_bounds (dea A) = D2 2 rows) (Hc : a_constraints (dea A) = Some "Random"%string).
    Context (HU : UniformBox rows).
    Context (HB : a_backend (dea A) = Some "mpi"%string -> BcastKeeps (Box rows)).

    Let InB := Forall2 inb (combine (lows rows) (ups rows)).

    Lemma HB' : a_backend (dea A) = Some "mpi"%string -> BcastKeeps InB.
    Proof. intros H. apply (BcastKeeps_iff (Box rows)); [apply Box_iff|auto]. Qed.

    Lemma InB_len x : InB x -> Len (length rows) x.
    Proof. intros H. apply Forall2_length in H. rewrite combine_bounds, map_length in H. symmetry. exact H. Qed.

    Lemma safe_de_run C : InitIs (dea A) rows InB C ->
      safe InB (CbBox rows) (de_minimize A) (fun r => Box rows (r_x r)).
    Proof.
      intros HI. unfold de_minimize. cbv zeta.
      eapply safe_bind; [apply safe_check_pop|]. intros ? HA.
      do 2 (eapply safe_bind; [apply (safe_raise_if _ _ _ _ (fun _ => True)); auto|]; intros _ _).
      eapply safe_bind; [apply (safe_raise_if _ _ _ _ (fun _ => True)); auto|]; intros _ _.
      eapply safe_bind; [apply (safe_orelse _ _ _ _ (fun _ => True)); auto|]; intros st _.
      eapply safe_bind; [apply safe_seed_and_cb|]; intros _ _.
      unfold de. eapply safe_bind; [apply (safe_eval_kindM _ _ HE _ _ _ InB), HB'|]. intros mode [HM _].
      cbv zeta. eapply safe_bind; [apply safe_unpack|]. intros lu (rows' & Hr & ->).
      rewrite Hb in Hr. injection Hr as <-.
      rewrite Hc. cbn [de_cons_map String.eqb Ascii.eqb Bool.eqb orelse].
      eapply safe_bind; [apply (safe_ret _ _ _ (fun c => c = DERandom)); reflexivity|]. intros con ->.
      eapply safe_bind; [apply (safe_init _ _ _ rows InB C Hb HI HA)|]. intros X [HX1 HX2].
      eapply safe_bind; [apply (safe_raise_if _ _ _ _ (fun _ => True)); auto|]. intros _ _.
      eapply safe_bind; [apply (safe_eval_pop _ _ InB); auto|]. intros [X' f] (G1 & G2 & G3 & _).
      cbn [fst snd] in *. pose proof (pao_pop _ HA) as Hp.
      eapply safe_conseq.
      - apply (safe_de_tail _ _ _ _ _ _ _ _ _ _ _ _ _ _ InB);
          rewrite ?Hb, ?lows_len, ?ups_len; auto; try lia.
        + apply UniformBox_iff, HU.
        + exact InB_len.
        + intros Y s HY Hs. split; [|apply Box_iff, Hs]. eapply Forall_impl; [|exact HY].
          intros y Hy. apply Box_iff, Hy.
      - intros r Hr. apply Box_iff, Hr.
    Qed.

    Lemma late_de_run : (forall x, a_x0 (dea A) = Some x -> nd_wf x) ->
      late InB (fun _ _ => True) (Z.to_nat (a_popsize (dea A))) (de_minimize A) (fun _ => True).
    Proof.
      intros HI0.
      assert (HI : PopArgsOK (dea A) -> InitIs (dea A) rows (Len (length rows)) (fun _ _ => True)).
      { intros HA. unfold InitIs. destruct (a_x0 (dea A)) as [x|] eqn:Hx.
        - destruct (pao_x0 _ HA _ Hx) as (H1 & H2 & _). specialize (HI0 x eq_refl).
          destruct x as [| |c m]; try discriminate. rewrite Hb in H2. cbn in *. subst c. exact HI0.
        - split; [apply Forall_forall; intros r _ v k; auto|].
          intros x Hx0. apply Forall2_length in Hx0. rewrite combine_bounds, map_length in Hx0.
          symmetry; exact Hx0. }
      unfold de_minimize. cbv zeta.
      eapply (late_skip _ _ _ (fun _ _ => True)); [apply safe_check_pop|]. intros ? HA.
      do 2 (eapply (late_skip _ _ _ (fun _ _ => True)); [apply (safe_raise_if _ _ _ _ (fun _ => True)); auto|]; intros _ _).
      eapply (late_skip _ _ _ (fun _ _ => True)); [apply (safe_raise_if _ _ _ _ (fun _ => True)); auto|]; intros _ _.
      eapply (late_skip _ _ _ (fun _ _ => True)); [apply (safe_orelse _ _ _ _ (fun _ => True)); auto|]; intros st _.
      eapply (late_skip _ _ _ (fun _ _ => True)); [apply safe_seed_and_cb|]; intros _ _.
      unfold de. eapply (late_skip _ _ _ (fun _ _ => True)); [apply (safe_eval_kindM _ _ HE _ _ _ InB), HB'|]. intros mode [HM Hk].
      cbv zeta. eapply (late_skip _ _ _ (fun _ _ => True)); [apply safe_unpack|]. intros lu (rows' & Hr & ->).
      rewrite Hb in Hr. injection Hr as <-.
      rewrite Hc. cbn [de_cons_map String.eqb Ascii.eqb Bool.eqb orelse].
      eapply (late_skip _ _ _ (fun _ _ => True)); [apply (safe_ret _ _ _ (fun c => c = DERandom)); reflexivity|]. intros con ->.
      eapply (late_skip _ _ _ (fun _ _ => True)); [apply (safe_init _ _ _ rows (Len (length rows)) (fun _ _ => True) Hb (HI HA) HA)|]. intros X [HX1 HX2].
      eapply (late_skip _ _ _ (fun _ _ => True)); [apply (safe_raise_if _ _ _ _ (fun _ => True)); auto|]. intros _ _.
      eapply late_first.
      { rewrite <- HX1. apply (few_eval_pop mode X (Len (length rows))); [|exact HX2].
        destruct HM as [HM _]. split; [exact HM|]. intros ->. apply BcastKeeps_len, HM. }
      intros [X' f] (G1 & G2 & G3). cbn [fst snd] in *. pose proof (pao_pop _ HA) as Hp.
      eapply safe_conseq.
      - apply (safe_de_tail _ _ _ _ _ _ _ _ _ _ _ _ _ _ (Len (length rows)));
          rewrite ?Hb, ?lows_len, ?ups_len; auto; try lia.
        + apply UniformBox_iff, HU.
        + exact InB_len.
      - auto.
    Qed.
  End Runs.

  (** ** C10 *)

  (** Every point evaluated after the initial population lies in the box, in every execution and
      for every initial population. *)
  Theorem C10_after_initial A rows w a0 r st' :
    a_bounds (dea A) = D2 2 rows -> a_constraints (dea A) = Some "Random"%string -> UniformBox rows ->
    (a_backend (dea A) = Some "mpi"%string -> BcastKeeps (Box rows)) ->
    (forall x, a_x0 (dea A) = Some x -> nd_wf x) ->
    exec (de_minimize A) w a0 = (r, st') ->
    forall k x, nth_error (points (tr st')) k = Some x -> (a_popsize (dea A) <= Z.of_nat k)%Z -> Box rows x.
  Proof.
    intros Hb Hc HU HB Hwf Hx k x Hn Hk. apply Box_iff.
    eapply late_exec; [apply late_de_run; eauto|exact Hx| |exact Hn]. lia.
  Qed.

  (** If the initial population lies in the box, so does everything the objective and the callback
      are shown, and the returned point. *)
  Theorem C10_all A rows w a0 r st' :
    a_bounds (dea A) = D2 2 rows -> a_constraints (dea A) = Some "Random"%string -> UniformBox rows ->
    (a_backend (dea A) = Some "mpi"%string -> BcastKeeps (Box rows)) ->
    match a_x0 (dea A) with
    | Some x => Forall (Box rows) (nd_rows x)
    | None => Forall (fun r => LhsLaw inb (Z.to_nat (a_popsize (dea A))) (nth 0 r n0, nth 1 r n0)) rows
    end ->
    exec (de_minimize A) w a0 = (r, st') ->
    (forall x, In x (points (tr st')) -> Box rows x) /\
    (forall X st, In (X, st) (cbs (tr st')) -> Forall (Box rows) X /\ Box rows (cb_x st)) /\
    (forall res, r = inl res -> Box rows (r_x res)).
  Proof.
    intros Hb Hc HU HB HI Hx.
    assert (HI' : InitIs (dea A) rows (Forall2 inb (combine (lows rows) (ups rows))) inb).
    { unfold InitIs. destruct (a_x0 (dea A)); [|auto]. eapply Forall_impl; [|exact HI]. intros; apply Box_iff; auto. }
    destruct (safe_exec _ _ _ _ _ _ _ _ (safe_de_run A rows Hb Hc HU HB inb HI') Hx) as (H1 & H2 & H3).
    split; [intros x Hi; apply Box_iff, H1, Hi|]. split; [exact H2|]. exact H3.
  Qed.
End FeasDE.

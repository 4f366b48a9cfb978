(** A concrete environment, used to run the model: it shows that the hypotheses of the theorems can
    be met, and yields the counterexamples. *)
From Coq Require Import Floats.
From Verif Require Import Base Num NumF Env Common DE CPSO NA Hoare EvalRules Gen Steps Hist Runs
  Best Inst.

(** ** Elementary functions good to about 1e-15 (enough for demonstrations) *)
Section Funs.
  Local Open Scope float_scope.

  Fixpoint d_exp_ser (n : nat) (k x acc : float) : float :=
    match n with O => acc | S m => d_exp_ser m (k - 1) x (1 + x / k * acc) end.
  Fixpoint d_sq (n : nat) (x : float) : float :=
    match n with O => x | S m => d_sq m (x * x) end.
  Definition d_exp (x : float) : float :=
    if 709 <? x then infinity
    else if x <? -745 then 0
    else PrimFloat.abs (d_sq 11 (d_exp_ser 14 14 (x / 2048) 1)).

  Fixpoint d_atanh_ser (n : nat) (k z2 acc : float) : float :=
    match n with O => acc | S m => d_atanh_ser m (k - 2) z2 (1 / (k - 2) + z2 * acc) end.
  Definition d_ln (x : float) : float :=
    if x =? 0 then neg_infinity
    else if x <? 0 then nan
    else if x =? infinity then infinity
    else
      let '(m, e) := PrimFloat.frshiftexp x in
      let ez := (Uint63.to_Z e - FloatOps.shift)%Z in
      let z := (m - 1) / (m + 1) in
      f_ofZ ez * 0x1.62e42fefa39efp-1 + 2 * z * d_atanh_ser 20 41 (z * z) 0.

  Fixpoint d_cos_ser (n : nat) (k x2 acc : float) : float :=
    match n with O => acc | S m => d_cos_ser m (k - 2) x2 (1 - x2 / (k * (k - 1)) * acc) end.
  Definition d_cos (x : float) : float := d_cos_ser 24 48 (x * x) 1.

  Definition d_pow (x y : float) : float :=
    if x =? 0 then (if 0 <? y then 0 else infinity) else d_exp (y * d_ln x).

  Definition DF : FloatFuns := {| f_exp := d_exp; f_ln := d_ln; f_cos := d_cos; f_pow := d_pow |}.
End Funs.

(** ** A scripted generator: the values to come, and defaults when the script is exhausted *)
Record Script := mkScript {
  sc_u : list float; sc_n : list float; sc_p : list (list nat); sc_i : list nat }.
Definition noscript : Script := mkScript [] [] [] [].

Definition valid_perm (n : nat) (l : list nat) : bool :=
  (length l =? n)%nat && forallb (fun i => existsb (Nat.eqb i) l) (seq 0 n).

Lemma valid_perm_ok n l : valid_perm n l = true -> Permutation l (seq 0 n).
Proof.
  unfold valid_perm. rewrite andb_true_iff, Nat.eqb_eq, forallb_forall. intros [Hl H].
  assert (Hi : incl (seq 0 n) l).
  { intros i Hi. specialize (H i Hi). apply existsb_exists in H. destruct H as (j & Hj & He).
    apply Nat.eqb_eq in He. subst. exact Hj. }
  symmetry. apply NoDup_Permutation_bis; [apply seq_NoDup|rewrite seq_length; lia|exact Hi].
Qed.

Section DemoEnv.
  Variable F : FloatFuns.

  Definition d_rand (s : Script) : float * Script :=
    match sc_u s with
    | [] => (0.5%float, s)
    | u :: t => ((if (PrimFloat.leb 0 u && PrimFloat.ltb u 1)%float then u else 0.5%float),
                 mkScript t (sc_n s) (sc_p s) (sc_i s))
    end.
  Definition d_randn (s : Script) : float * Script :=
    match sc_n s with
    | [] => (0%float, s)
    | u :: t => (u, mkScript (sc_u s) t (sc_p s) (sc_i s))
    end.
  Definition d_perm (n : nat) (s : Script) : list nat * Script :=
    match sc_p s with
    | [] => (seq 0 n, s)
    | p :: t => ((if valid_perm n p then p else seq 0 n), mkScript (sc_u s) (sc_n s) t (sc_i s))
    end.
  Definition d_randint (n : nat) (s : Script) : nat * Script :=
    match sc_i s with
    | [] => (0, s)
    | i :: t => (i mod n, mkScript (sc_u s) (sc_n s) (sc_p s) t)
    end.

  (** insertion sort of indices by value, NaNs wherever they fall *)
  Fixpoint d_insert (f : list float) (i : nat) (l : list nat) : list nat :=
    match l with
    | [] => [i]
    | j :: t => if PrimFloat.leb (nth i f 0%float) (nth j f 0%float) then i :: l
                else j :: d_insert f i t
    end.
  Fixpoint d_isort (f : list float) (l : list nat) : list nat :=
    match l with [] => [] | i :: t => d_insert f i (d_isort f t) end.
  Definition d_argsort (f : list float) : list nat := d_isort f (seq 0 (length f)).

  (** eigendecomposition of diagonal matrices *)
  Definition d_eigh (m : list (list float)) : option (list float * list (list float)) :=
    let n := length m in
    Some (map (fun i => nth i (nth i m []) 0%float) (seq 0 n),
          map (fun i => map (fun j => if (i =? j)%nat then 1%float else 0%float) (seq 0 n)) (seq 0 n)).

  Definition d_median (v : list float) : float :=
    let s := map (fun i => nth i v 0%float) (d_argsort v) in
    let n := length v in
    if Nat.odd n then nth (n / 2) s 0%float
    else PrimFloat.div (PrimFloat.add (nth (n / 2 - 1) s 0%float) (nth (n / 2) s 0%float)) 2%float.
  (** linear interpolation between the two nearest order statistics *)
  Definition d_percentile (v : list float) (q : float) : float :=
    let s := map (fun i => nth i v 0%float) (d_argsort v) in
    let h := PrimFloat.mul (PrimFloat.div q 100%float) (f_ofZ (Z.of_nat (length v) - 1)) in
    match sf_trunc (FloatOps.Prim2SF h) with
    | None => nan
    | Some k => let i := Z.to_nat k in
                let a := nth i s 0%float in
                let b := nth (Nat.min (S i) (length v - 1)) s 0%float in
                PrimFloat.add a (PrimFloat.mul (PrimFloat.sub h (f_ofZ k)) (PrimFloat.sub b a))
    end.

  (** [f]: the objective, which may raise ([inr]); the callback does nothing. *)
  Definition DemoEnv (f : list float -> float + nat) : Env (FNum F) :=
    @mkEnv (FNum F) Script unit
       (fun _ => noscript)
       d_rand d_randn d_perm d_randint
       (fun x w => (f x, w))
       (fun _ _ w => (None, w)) (fun _ _ w => (None, w))
       (fun n _ => rev (seq 0 n))
       0 1 (fun _ X => X) (fun _ _ f => f)
       d_argsort d_percentile d_median d_eigh (fun n => repeat nan n).

  Lemma d_insert_perm f i l : Permutation (d_insert f i l) (i :: l).
  Proof.
    induction l as [|j t IH]; cbn; [reflexivity|].
    destruct (PrimFloat.leb _ _); [reflexivity|].
    rewrite IH. apply perm_swap.
  Qed.
  Lemma d_isort_perm f l : Permutation (d_isort f l) l.
  Proof.
    induction l as [|i t IH]; cbn; [reflexivity|].
    rewrite d_insert_perm, IH. reflexivity.
  Qed.

  Definition d_sorted (f : list float) (l : list nat) : Prop :=
    forall a b, a < b -> b < length l ->
      PrimFloat.leb (nth (nth a l 0) f 0%float) (nth (nth b l 0) f 0%float) = true.

  Lemma d_sorted_cons f i l :
    d_sorted f l -> (forall j, In j l -> PrimFloat.leb (nth i f 0%float) (nth j f 0%float) = true) ->
    d_sorted f (i :: l).
  Proof.
    intros H Hi a b Hab Hb. destruct b as [|b]; [lia|]. cbn in Hb.
    destruct a as [|a]; cbn.
    - apply Hi, nth_In. lia.
    - apply H; lia.
  Qed.
  Lemma d_sorted_inv f i l :
    d_sorted f (i :: l) ->
    d_sorted f l /\ (forall j, In j l -> PrimFloat.leb (nth i f 0%float) (nth j f 0%float) = true).
  Proof.
    intros H. split.
    - intros a b Hab Hb. apply (H (S a) (S b)); cbn; lia.
    - intros j Hj. destruct (In_nth _ _ 0 Hj) as (b & Hb & <-).
      apply (H 0 (S b)); cbn; lia.
  Qed.

  Lemma d_insert_sorted f i l :
    (forall j, PrimFloat.leb (nth j f 0%float) (nth j f 0%float) = true) ->
    d_sorted f l -> d_sorted f (d_insert f i l).
  Proof.
    intros Hn. induction l as [|j t IH]; cbn; intros H.
    - intros a b Hab Hb. cbn in Hb. lia.
    - destruct (d_sorted_inv _ _ _ H) as [Ht Hj].
      destruct (PrimFloat.leb (nth i f 0%float) (nth j f 0%float)) eqn:E.
      + apply d_sorted_cons; [exact H|]. intros k [<-|Hk]; [exact E|].
        apply (@ol_le_trans _ (FOrd F) _ _ _ E). apply Hj, Hk.
      + apply d_sorted_cons; [apply IH, Ht|]. intros k Hk.
        apply (Permutation_in _ (d_insert_perm f i t)) in Hk. destruct Hk as [<-|Hk]; [|apply Hj, Hk].
        apply (@ol_lt_le _ (FOrd F)). apply (@nle_lt _ (FOrd F)); auto; apply Hn.
  Qed.
  Lemma d_isort_sorted f l :
    (forall j, PrimFloat.leb (nth j f 0%float) (nth j f 0%float) = true) -> d_sorted f (d_isort f l).
  Proof.
    intros Hn. induction l as [|i t IH]; cbn.
    - intros a b Hab Hb. cbn in Hb. lia.
    - apply d_insert_sorted; auto.
  Qed.

  Theorem DemoEnv_OK f : @EnvOK (FNum F) (DemoEnv f).
  Proof.
    constructor.
    - intros n w. cbn. symmetry. apply Permutation_rev.
    - split; intros; reflexivity.
    - split.
      + intros v. cbn. apply d_isort_perm.
      + intros v Hv a b Hab Hb. cbn. apply d_isort_sorted; [|exact Hab|].
        * intros j. destruct (Nat.lt_ge_cases j (length v)) as [Hj|Hj].
          -- rewrite Forall_forall in Hv. apply (Hv (nth j v 0%float)), nth_In, Hj.
          -- rewrite nth_overflow by exact Hj. reflexivity.
        * rewrite (Permutation_length (d_isort_perm _ _)), seq_length. exact Hb.
    - intros r. cbn. unfold d_rand. destruct (sc_u r) as [|u t]; cbn; [split; reflexivity|].
      change (f_lit 0 0) with 0%float. change (f_lit 1 0) with 1%float.
      destruct (PrimFloat.leb 0 u && PrimFloat.ltb u 1)%float eqn:Eu; [|split; reflexivity].
      apply andb_true_iff in Eu. exact Eu.
    - intros n r. cbn. unfold d_perm. destruct (sc_p r) as [|u t]; cbn; [reflexivity|].
      destruct (valid_perm n u) eqn:Eu; [|reflexivity]. apply valid_perm_ok, Eu.
    - intros n r Hn. cbn. unfold d_randint. destruct (sc_i r) as [|u t]; cbn; [exact Hn|].
      apply Nat.mod_upper_bound. lia.
  Qed.
End DemoEnv.

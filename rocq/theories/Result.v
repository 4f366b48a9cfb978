(** Result objects: stochopy/_common.py:1-35 (BaseResult), and C42.

    A str is the list of its code points; a dict is the list of its items in insertion order. *)
From Coq Require Import String Ascii Permutation Sorted.
From Verif Require Import Base.
Local Open Scope list_scope.

(** ** Model *)
Definition str := list nat.
Definition codes (s : string) : str := map nat_of_ascii (list_ascii_of_string s).

Fixpoint str_eqb (a b : str) : bool :=
  match a, b with
  | [], [] => true
  | x :: a, y :: b => Nat.eqb x y && str_eqb a b
  | _, _ => false
  end.
(** a < b on str: lexicographic by code point *)
Fixpoint str_ltb (a b : str) : bool :=
  match a, b with
  | [], _ :: _ => true
  | x :: a, y :: b => Nat.ltb x y || (Nat.eqb x y && str_ltb a b)
  | _, [] => false
  end.

(** k.rjust(m) *)
Definition rjust (m : nat) (k : str) : str := repeat 32 (m - length k) ++ k.
Fixpoint join (sep : str) (l : list str) : str :=
  match l with [] => [] | [a] => a | a :: t => a ++ sep ++ join sep t end.

Section Result.
  Context {V : Type}.
  Definition dict := list (str * V).
  Definition keys (d : dict) : list str := map fst d.

  Fixpoint d_get (d : dict) (k : str) : option V :=
    match d with [] => None | (j, v) :: t => if str_eqb j k then Some v else d_get t k end.
  (** dict.__setitem__: an existing key keeps its place *)
  Fixpoint d_set (d : dict) (k : str) (v : V) : dict :=
    match d with [] => [(k, v)] | (j, u) :: t => if str_eqb j k then (j, v) :: t else (j, u) :: d_set t k v end.
  (** dict.__delitem__ *)
  Fixpoint d_del (d : dict) (k : str) : option dict :=
    match d with
    | [] => None
    | (j, u) :: t => if str_eqb j k then Some t else option_map (cons (j, u)) (d_del t k)
    end.
  (** res.update({...}) *)
  Definition d_update (d : dict) (l : dict) : dict := fold_left (fun d kv => d_set d (fst kv) (snd kv)) l d.

  Inductive exn := KeyErr (k : str) | AttrErr (k : str).
  (** what reading gives: an item, or something found on the class *)
  Inductive got := Val (v : V) | OfClass (k : str).

  (** names that ordinary attribute lookup finds on the class (methods of dict, special names):
      [__getattr__] is only called when that lookup fails *)
  Context (on_class : str -> bool).

  (** res[k] *)
  Definition getitem (d : dict) (k : str) : got + exn :=
    match d_get d k with Some v => inl (Val v) | None => inr (KeyErr k) end.
  (** res.k: _common.py:9-14 *)
  Definition getattribute (d : dict) (k : str) : got + exn :=
    if on_class k then inl (OfClass k)
    else match getitem d k with inl v => inl v | inr _ => inr (AttrErr k) end.
  (** res[k] = v; res.k = v: _common.py:16 *)
  Definition setitem := d_set.
  Definition setattribute := setitem.
  (** del res[k]; del res.k: _common.py:17 *)
  Definition delitem (d : dict) (k : str) : dict + exn :=
    match d_del d k with Some d => inl d | None => inr (KeyErr k) end.
  Definition delattribute := delitem.

  (** _common.py:19-31 *)
  Fixpoint insert (kv : str * V) (l : dict) : dict :=
    match l with [] => [kv] | h :: t => if str_ltb (fst h) (fst kv) then h :: insert kv t else kv :: l end.
  Definition sorted (d : dict) : dict := fold_right insert [] d.
  Definition hidden (k : str) : bool := str_eqb k (codes "xall") || str_eqb k (codes "funall").
  Definition width (d : dict) : nat := fold_right Nat.max 0 (map (@length nat) (keys d)) + 1.
  Definition repr (rv : V -> str) (name : str) (d : dict) : str :=
    match d with
    | [] => name ++ codes "()"
    | _ =>
        let m := width d in
        join [10] (map (fun kv => rjust m (fst kv) ++ codes ": " ++ rv (snd kv))
                     (filter (fun kv => negb (hidden (fst kv))) (sorted d)))
    end.
  (** _common.py:33-35 *)
  Definition dir (d : dict) : list str := keys d.

  (** a program using the object: statements, each by attribute or by item; a failing del raises
      and changes nothing *)
  Inductive access := Attr | Item.
  Inductive op := OSet (a : access) (k : str) (v : V) | ODel (a : access) (k : str).
  Definition apply_op (d : dict) (o : op) : dict * option exn :=
    match o with
    | OSet Attr k v => (setattribute d k v, None)
    | OSet Item k v => (setitem d k v, None)
    | ODel Attr k => match delattribute d k with inl d' => (d', None) | inr e => (d, Some e) end
    | ODel Item k => match delitem d k with inl d' => (d', None) | inr e => (d, Some e) end
    end.
  Fixpoint apply_ops (d : dict) (l : list op) : dict * list (option exn) :=
    match l with
    | [] => (d, [])
    | o :: l => let '(d, e) := apply_op d o in let '(d, es) := apply_ops d l in (d, e :: es)
    end.

  (** ** Specification: a partial function from names to values *)
  Definition override (m : str -> option V) (k : str) (r : option V) : str -> option V :=
    fun j => if str_eqb k j then r else m j.
  Fixpoint meaning (m : str -> option V) (l : list op) : (str -> option V) * list (option exn) :=
    match l with
    | [] => (m, [])
    | OSet _ k v :: l => let '(m, es) := meaning (override m k (Some v)) l in (m, None :: es)
    | ODel _ k :: l =>
        let e := match m k with Some _ => None | None => Some (KeyErr k) end in
        let '(m, es) := meaning (override m k None) l in (m, e :: es)
    end.
  Definition swap (a : access) : access := match a with Attr => Item | Item => Attr end.
  Definition flip (o : op) : op := match o with OSet a k v => OSet (swap a) k v | ODel a k => ODel (swap a) k end.

  (** ** Facts *)
  Lemma str_eqb_eq a b : str_eqb a b = true <-> a = b.
  Proof.
    revert b; induction a as [|x a IH]; intros [|y b]; cbn; try (split; congruence).
    rewrite andb_true_iff, Nat.eqb_eq, IH. split; [intros [-> ->]; reflexivity|intros H; injection H; auto].
  Qed.
  Lemma str_eqb_refl a : str_eqb a a = true.
  Proof. apply str_eqb_eq; reflexivity. Qed.
  Lemma str_eqb_neq a b : a <> b -> str_eqb a b = false.
  Proof. intros H. destruct (str_eqb a b) eqn:E; [|reflexivity]. apply str_eqb_eq in E. contradiction. Qed.
  Lemma str_eqb_sym a b : str_eqb a b = str_eqb b a.
  Proof.
    destruct (str_eqb b a) eqn:E; [apply str_eqb_eq in E; subst; apply str_eqb_refl|].
    apply str_eqb_neq. intros ->. rewrite str_eqb_refl in E. discriminate.
  Qed.

  Lemma get_keys d k : d_get d k <> None <-> In k (keys d).
  Proof.
    induction d as [|[j v] d IH]; cbn; [tauto|].
    destruct (str_eqb j k) eqn:E.
    - apply str_eqb_eq in E. split; [auto|congruence].
    - rewrite IH. split; [auto|]. intros [->|H]; [rewrite str_eqb_refl in E; discriminate|exact H].
  Qed.
  Lemma get_set d k v j : d_get (d_set d k v) j = override (d_get d) k (Some v) j.
  Proof.
    unfold override. induction d as [|[i u] d IH]; cbn.
    - reflexivity.
    - destruct (str_eqb i k) eqn:E; cbn.
      + apply str_eqb_eq in E; subst i. destruct (str_eqb k j); reflexivity.
      + rewrite IH. destruct (str_eqb i j) eqn:E2; [|reflexivity].
        apply str_eqb_eq in E2; subst i. rewrite (str_eqb_sym k j), E. reflexivity.
  Qed.
  Lemma keys_set d k v : keys (d_set d k v) = if existsb (fun j => str_eqb j k) (keys d) then keys d else keys d ++ [k].
  Proof.
    induction d as [|[i u] d IH]; cbn; [reflexivity|].
    destruct (str_eqb i k) eqn:E; cbn; [reflexivity|]. unfold keys in *; cbn. rewrite IH.
    destruct (existsb _ _); reflexivity.
  Qed.
  Lemma nodup_set d k v : NoDup (keys d) -> NoDup (keys (d_set d k v)).
  Proof.
    intros H. rewrite keys_set. destruct (existsb _ _) eqn:E; [exact H|].
    apply (Permutation_NoDup (l := k :: keys d)); [apply Permutation_cons_append|].
    constructor; [|exact H]. intros Hk.
    assert (existsb (fun j => str_eqb j k) (keys d) = true); [|congruence].
    apply existsb_exists. exists k. split; [exact Hk|apply str_eqb_refl].
  Qed.
  Lemma del_spec d k : NoDup (keys d) ->
    match d_del d k with
    | None => d_get d k = None
    | Some d' => d_get d k <> None /\ NoDup (keys d') /\ (forall j, In j (keys d') -> In j (keys d)) /\
        forall j, d_get d' j = override (d_get d) k None j
    end.
  Proof.
    unfold override. induction d as [|[i u] d IH]; cbn; intros HN; [reflexivity|].
    pose proof (NoDup_cons_iff i (keys d)) as [HC _]. destruct (HC HN) as [Hi Hd]. clear HC.
    destruct (str_eqb i k) eqn:E.
    - apply str_eqb_eq in E; subst i. split; [congruence|]. split; [exact Hd|]. split; [auto|].
      intros j. destruct (str_eqb k j) eqn:E2; [|reflexivity]. apply str_eqb_eq in E2; subst j.
      destruct (d_get d k) eqn:G; [|reflexivity]. exfalso. apply Hi, get_keys. congruence.
    - specialize (IH Hd). destruct (d_del d k) as [d'|]; cbn; [|exact IH].
      destruct IH as (H1 & H2 & H3 & H4). split; [exact H1|]. split; [|split].
      + constructor; [|exact H2]. intros Hin. apply Hi, H3, Hin.
      + intros j [->|Hj]; auto.
      + intros j. rewrite H4. destruct (str_eqb i j) eqn:E2; [|reflexivity].
        apply str_eqb_eq in E2; subst j. rewrite (str_eqb_sym k i), E. reflexivity.
  Qed.

  Lemma meaning_ext l : forall m m', (forall k, m k = m' k) ->
    (forall k, fst (meaning m l) k = fst (meaning m' l) k) /\ snd (meaning m l) = snd (meaning m' l).
  Proof.
    induction l as [|[a k v|a k] l IH]; intros m m' H; [split; [exact H|reflexivity]| |]; cbn.
    - destruct (IH (override m k (Some v)) (override m' k (Some v))) as [H1 H2].
      { intros j. unfold override. rewrite H. reflexivity. }
      destruct (meaning (override m k (Some v)) l), (meaning (override m' k (Some v)) l). cbn in *.
      split; [exact H1|congruence].
    - destruct (IH (override m k None) (override m' k None)) as [H1 H2].
      { intros j. unfold override. rewrite H. reflexivity. }
      rewrite H. destruct (meaning (override m k None) l), (meaning (override m' k None) l). cbn in *.
      split; [exact H1|congruence].
  Qed.

  (** ** C42: reading, writing and deleting *)
  Lemma C42_ops_from l : forall d, NoDup (keys d) ->
    let r := apply_ops d l in
    NoDup (keys (fst r)) /\
    (forall k, d_get (fst r) k = fst (meaning (d_get d) l) k) /\ snd r = snd (meaning (d_get d) l).
  Proof.
    induction l as [|o l IH]; intros d HN; [cbn; auto|]. cbv zeta.
    assert (HS : forall d' m e, NoDup (keys d') -> (forall k, d_get d' k = m k) ->
       let r := let '(d, es) := apply_ops d' l in (d, e :: es) in
       let s := let '(m, es) := meaning m l in (m, e :: es) in
       NoDup (keys (fst r)) /\ (forall k, d_get (fst r) k = fst s k) /\ snd r = snd s).
    { intros d' m e HN' Hm. cbv zeta. specialize (IH d' HN'). cbv zeta in IH. destruct IH as (I1 & I2 & I3).
      destruct (meaning_ext l _ _ Hm) as [M1 M2].
      destruct (apply_ops d' l) as [d2 es], (meaning (d_get d') l) as [m2 es2], (meaning m l) as [m3 es3]. cbn in *.
      split; [exact I1|]. split; [intros k; rewrite I2; apply M1|congruence]. }
    destruct o as [a k v|a k]; cbn [apply_ops meaning].
    - assert (Ho : apply_op d (OSet a k v) = (d_set d k v, None)) by (destruct a; reflexivity).
      rewrite Ho. apply HS; [apply nodup_set, HN|]. intros j. apply get_set.
    - assert (Ho : apply_op d (ODel a k) = match d_del d k with Some d' => (d', None) | None => (d, Some (KeyErr k)) end).
      { destruct a; cbn; unfold delattribute, delitem; destruct (d_del d k); reflexivity. }
      rewrite Ho. pose proof (del_spec d k HN) as HD. destruct (d_del d k) as [d'|].
      + destruct HD as (H1 & H2 & _ & H4). destruct (d_get d k); [|congruence]. apply HS; assumption.
      + rewrite HD. apply HS; [exact HN|]. intros j. unfold override.
        destruct (str_eqb k j) eqn:E; [|reflexivity]. apply str_eqb_eq in E; subst j. exact HD.
  Qed.

  Lemma apply_ops_flip l : forall d, apply_ops d (map flip l) = apply_ops d l.
  Proof.
    induction l as [|o l IH]; intros d; [reflexivity|]. cbn [map apply_ops].
    replace (apply_op d (flip o)) with (apply_op d o) by (destruct o as [[]|[]]; reflexivity).
    destruct (apply_op d o). rewrite IH. reflexivity.
  Qed.

  (** After any program, started with a new object: every name reads as the last value given to it,
      by item and (names not on the class) by attribute; a missing one raises KeyError by item and
      AttributeError by attribute; a failing del raises KeyError in both forms; writing by item what
      was written by attribute and conversely gives the same object and the same exceptions; dir()
      lists exactly the names that have a value, each once. *)
  Theorem C42_access (l : list op) :
    let d := fst (apply_ops [] l) in
    let m := fst (meaning (fun _ => None) l) in
    (forall k, getitem d k = match m k with Some v => inl (Val v) | None => inr (KeyErr k) end) /\
    (forall k, on_class k = false ->
       getattribute d k = match m k with Some v => inl (Val v) | None => inr (AttrErr k) end) /\
    (forall k, on_class k = true -> getattribute d k = inl (OfClass k)) /\
    snd (apply_ops [] l) = snd (meaning (fun _ => None) l) /\
    apply_ops [] (map flip l) = apply_ops [] l /\
    NoDup (dir d) /\ (forall k, In k (dir d) <-> m k <> None).
  Proof.
    cbv zeta. destruct (C42_ops_from l [] (NoDup_nil _)) as (H1 & H2 & H3). change (d_get []) with (fun _ : str => @None V) in *.
    assert (HI : forall k, getitem (fst (apply_ops [] l)) k =
      match fst (meaning (fun _ => None) l) k with Some v => inl (Val v) | None => inr (KeyErr k) end).
    { intros k. unfold getitem. rewrite H2. reflexivity. }
    split; [exact HI|]. split; [|split; [|split; [|split; [|split]]]].
    - intros k Hk. unfold getattribute. rewrite Hk, HI. destruct (fst (meaning _ l) k); reflexivity.
    - intros k Hk. unfold getattribute. rewrite Hk. reflexivity.
    - exact H3.
    - apply apply_ops_flip.
    - exact H1.
    - intros k. unfold dir. rewrite <- get_keys, H2. reflexivity.
  Qed.

  (** ** C42: repr *)
  Definition lt (a b : str) : Prop := str_ltb a b = true.
  Lemma ltb_trans a b c : lt a b -> lt b c -> lt a c.
  Proof.
    unfold lt. revert b c; induction a as [|x a IH]; intros [|y b] [|z c]; cbn [str_ltb]; try congruence; auto.
    rewrite !orb_true_iff, !andb_true_iff, !Nat.ltb_lt, !Nat.eqb_eq.
    intros [H|[-> H]] [H'|[E H']]; try (left; lia). right. split; [exact E|]. eapply IH; eassumption.
  Qed.
  Lemma ltb_total a b : a <> b -> str_ltb a b = false -> lt b a.
  Proof.
    unfold lt. revert b; induction a as [|x a IH]; intros [|y b]; cbn [str_ltb]; try congruence; auto.
    intros Hn H. apply orb_false_iff in H. destruct H as [H1 H2]. apply Nat.ltb_ge in H1.
    rewrite orb_true_iff, andb_true_iff, Nat.ltb_lt, Nat.eqb_eq.
    destruct (Nat.eq_dec x y) as [->|]; [|left; lia]. right. split; [reflexivity|].
    rewrite Nat.eqb_refl in H2. cbn in H2. apply IH; [congruence|exact H2].
  Qed.
  Lemma ltb_irrefl a : ~ lt a a.
  Proof. unfold lt. induction a as [|x a IH]; cbn [str_ltb]; [congruence|]. rewrite Nat.ltb_irrefl, Nat.eqb_refl. exact IH. Qed.

  Lemma insert_perm kv l : Permutation (kv :: l) (insert kv l).
  Proof.
    induction l as [|h l IH]; cbn; [reflexivity|]. destruct (str_ltb (fst h) (fst kv)); [|reflexivity].
    etransitivity; [apply perm_swap|]. apply perm_skip, IH.
  Qed.
  Lemma sorted_perm d : Permutation d (sorted d).
  Proof. induction d as [|kv d IH]; cbn; [constructor|]. etransitivity; [apply perm_skip, IH|apply insert_perm]. Qed.
  Definition kv_lt (a b : str * V) : Prop := lt (fst a) (fst b).
  Lemma insert_sorted kv l : ~ In (fst kv) (keys l) -> StronglySorted kv_lt l -> StronglySorted kv_lt (insert kv l).
  Proof.
    induction l as [|h l IH]; cbn; intros Hn Hs; [repeat constructor|].
    inversion Hs as [|? ? Hl Hh]; subst.
    destruct (str_ltb (fst h) (fst kv)) eqn:E.
    - constructor; [apply IH; tauto|]. apply (Permutation_Forall (insert_perm kv l)). constructor; [exact E|exact Hh].
    - assert (Hlt : lt (fst kv) (fst h)) by (apply ltb_total; [intros X; apply Hn; left; exact X|exact E]).
      constructor; [exact Hs|]. constructor; [exact Hlt|]. eapply Forall_impl; [|exact Hh].
      intros q Hq. unfold kv_lt in *. eapply ltb_trans; eassumption.
  Qed.
  Lemma sorted_sorted d : NoDup (keys d) -> StronglySorted kv_lt (sorted d).
  Proof.
    induction d as [|kv d IH]; cbn; intros HN; [constructor|]. inversion HN as [|? ? Hk Hd]; subst.
    apply insert_sorted; [|apply IH, Hd]. intros Hin. apply Hk.
    apply (Permutation_in (l := keys (sorted d))); [|exact Hin]. apply Permutation_map. symmetry. apply sorted_perm.
  Qed.
  Lemma filter_ss (f : str * V -> bool) l : StronglySorted kv_lt l -> StronglySorted kv_lt (filter f l).
  Proof.
    induction 1 as [|h l Hl IH Hh]; cbn; [constructor|]. destruct (f h); [|exact IH]. constructor; [exact IH|].
    apply Forall_forall. intros q Hq. apply filter_In in Hq. rewrite Forall_forall in Hh. apply Hh, Hq.
  Qed.
  Lemma max_ge l n : In n l -> n <= fold_right Nat.max 0 l.
  Proof. induction l as [|h l IH]; cbn; [tauto|]. intros [->|H]; [lia|]. specialize (IH H). lia. Qed.
  Lemma width_ge d k : In k (keys d) -> length k + 1 <= width d.
  Proof. intros H. unfold width. pose proof (max_ge _ _ (in_map (@length nat) _ _ H)). lia. Qed.

  (** The lines of repr: strictly increasing names (so each once), exactly those having a value other
      than xall and funall, each shown with its value behind as many spaces as bring the colon to one
      common column, at least one space. *)
  Theorem C42_repr (rv : V -> str) (name : str) (l : list op) :
    let d := fst (apply_ops [] l) in
    let m := fst (meaning (fun _ => None) l) in
    (d = [] -> repr rv name d = name ++ codes "()") /\
    (d <> [] -> exists w shown,
       repr rv name d = join (codes (String "010" ""))
         (map (fun kv => repeat 32 (w - length (fst kv)) ++ fst kv ++ codes ": " ++ rv (snd kv)) shown) /\
       (forall k v, In (k, v) shown <-> m k = Some v /\ k <> codes "xall" /\ k <> codes "funall") /\
       StronglySorted lt (map fst shown) /\
       (forall k, m k <> None -> length k < w)).
  Proof.
    cbv zeta. destruct (C42_ops_from l [] (NoDup_nil _)) as (HN & HG & _). change (d_get []) with (fun _ : str => @None V) in *.
    set (d := fst (apply_ops [] l)) in *. set (m := fst (meaning _ l)) in *. clearbody d m.
    split; [intros ->; reflexivity|]. intros Hne.
    exists (width d), (filter (fun kv => negb (hidden (fst kv))) (sorted d)). split; [|split; [|split]].
    - unfold repr. destruct d as [|kv0 d0]; [congruence|]. cbv zeta. f_equal. apply map_ext.
      intros kv. unfold rjust. rewrite <- app_assoc. reflexivity.
    - intros k v. rewrite filter_In. cbn [fst].
      assert (HK : In (k, v) (sorted d) <-> m k = Some v).
      { rewrite <- HG. split.
        - intros Hin. apply (Permutation_in _ (Permutation_sym (sorted_perm d))) in Hin. clear - Hin HN.
          induction d as [|[j u] d IH]; [destruct Hin|]. cbn in *. inversion HN as [|? ? Hj Hd]; subst.
          destruct Hin as [E|Hin]; [injection E as -> ->; rewrite str_eqb_refl; reflexivity|].
          rewrite str_eqb_neq; [apply IH; assumption|]. intros ->. apply Hj. apply (in_map fst) in Hin. exact Hin.
        - intros G. apply (Permutation_in _ (sorted_perm d)). clear - G.
          induction d as [|[j u] d IH]; [discriminate|]. cbn in *. destruct (str_eqb j k) eqn:E; [|auto].
          apply str_eqb_eq in E; subst j. injection G as ->. left; reflexivity. }
      rewrite HK. unfold hidden. rewrite negb_orb, andb_true_iff, !negb_true_iff.
      assert (HH : forall a b, str_eqb a b = false <-> a <> b).
      { intros a b. split; [intros E ->; rewrite str_eqb_refl in E; discriminate|apply str_eqb_neq]. }
      rewrite !HH. reflexivity.
    - pose proof (filter_ss (fun kv => negb (hidden (fst kv))) _ (sorted_sorted d HN)) as HS.
      induction HS as [|h t Ht IH Hh]; cbn; constructor; [exact IH|].
      apply Forall_forall. intros k Hk. apply in_map_iff in Hk. destruct Hk as (q & <- & Hq).
      rewrite Forall_forall in Hh. apply (Hh q Hq).
    - intros k Hk. assert (Hin : In k (keys d)) by (apply get_keys; rewrite HG; exact Hk).
      pose proof (width_ge d k Hin). lia.
  Qed.
End Result.

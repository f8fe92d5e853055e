(** Proofs about PDSTree. *)
From Verif Require Import Base BaseLemmas ModelGraph Spec ModelMixed SpecMixed ModelPDS SpecPDS.

Lemma ptree_ind' (P : ptree → Prop) : (∀ x d cs, Forall P cs → P (PTree x d cs)) → ∀ t, P t.
Proof.
  intros H. fix IH 1. intros [x d cs]. apply H. induction cs as [|c cs IHc]; constructor; [apply IH|exact IHc].
Qed.

Lemma tpath_inv t p : tpath t p → p = [] ∨ ∃ c p', p = origin c :: p' ∧ c ∈ children t ∧ tpath c p'.
Proof. destruct 1; [by left|]. right. eauto. Qed.

Lemma tpath_cons t x p : tpath t (x :: p) ↔ ∃ c, c ∈ children t ∧ origin c = x ∧ tpath c p.
Proof.
  split.
  - intros [?|(c & p' & [= -> ->] & ? & ?)]%tpath_inv; [done|]. eauto.
  - intros (c & ? & <- & ?). by constructor.
Qed.

Lemma occurs_cases t v p : tpath t (p ++ [v]) ↔ ∃ c, c ∈ children t ∧
  ((p = [] ∧ origin c = v) ∨ ∃ p', p = origin c :: p' ∧ tpath c (p' ++ [v])).
Proof.
  destruct p as [|x p].
  - cbn [app]. rewrite tpath_cons. split.
    + intros (c & ? & ? & ?). exists c. split; [done|]. by left.
    + intros (c & Hc & [[_ Hv]|(p' & ? & _)]); [|done]. exists c. split_and!; [done..|constructor].
  - cbn [app]. rewrite tpath_cons. split.
    + intros (c & ? & <- & ?). exists c. split; [done|]. right. eauto.
    + intros (c & Hc & [[? _]|(p' & [= -> ->] & Hp)]); [done|]. eauto.
Qed.

(** ** get_max_depth *)
Definition max_go := fix go (m : nat) (cs : list ptree) : nat :=
  match cs with
  | [] => m
  | c :: cs => go (if decide (m < get_max_depth c) then get_max_depth c else m) cs
  end.
Lemma max_go_spec cs : ∀ m, m ≤ max_go m cs ∧ (∀ c, c ∈ cs → get_max_depth c ≤ max_go m cs) ∧
  (max_go m cs = m ∨ ∃ c, c ∈ cs ∧ max_go m cs = get_max_depth c).
Proof.
  induction cs as [|c cs IH]; intros m; cbn [max_go].
  - split; [lia|]. split; [by intros c ?%elem_of_nil|by left].
  - destruct (IH (if decide (m < get_max_depth c) then get_max_depth c else m)) as (H1 & H2 & H3).
    split; [case_decide; lia|]. split.
    + intros c' [->|Hc]%elem_of_cons; [case_decide; lia|by apply H2].
    + destruct H3 as [H3|(c' & Hc' & H3)].
      * case_decide; [right; exists c; split; [left|done]|by left].
      * right. exists c'. split; [by right|done].
Qed.
Lemma max_depth_pos t : 1 ≤ get_max_depth t.
Proof. destruct t as [x d [|c cs]]; cbn; lia. Qed.

Lemma get_max_depth_eq x d cs : cs ≠ [] → get_max_depth (PTree x d cs) = max_go 1 cs + 1.
Proof. by destruct cs. Qed.

Lemma get_max_depth_ok t : (∃ p, tpath t p ∧ get_max_depth t = length p + 1) ∧ ∀ p, tpath t p → length p + 1 ≤ get_max_depth t.
Proof.
  induction t as [x d cs IH] using ptree_ind'. rewrite Forall_forall in IH.
  destruct (decide (cs = [])) as [->|Hne].
  { split; [by exists []; split; [constructor|]|]. intros p [->|(c & p' & -> & Hc & _)]%tpath_inv; [done|]. by apply elem_of_nil in Hc. }
  rewrite get_max_depth_eq by done. destruct (max_go_spec cs 1) as (H1 & H2 & H3). split.
  - assert (∃ c, c ∈ cs ∧ max_go 1 cs = get_max_depth c) as (c & Hc & ->).
    { destruct H3 as [H3|H3]; [|done]. destruct cs as [|c cs]; [done|]. exists c. split; [left|].
      pose proof (H2 c (elem_of_list_here _ _)). pose proof (max_depth_pos c). lia. }
    destruct (IH c Hc) as [(p & Hp & Hl) _]. exists (origin c :: p). split; [by constructor|]. cbn. lia.
  - intros p [->|(c & p' & -> & Hc & Hp)]%tpath_inv; [cbn; lia|]. destruct (IH c Hc) as [_ Hm].
    specialize (Hm p' Hp). specialize (H2 c Hc). cbn. lia.
Qed.

(** ** get_minimal_distance *)
Definition dist_go (v : node) := fix go (m : option nat) (cs : list ptree) : option nat :=
  match cs with
  | [] => m
  | c :: cs => if decide (origin c = v) then Some (depth_level c) else go (omin m (get_minimal_distance v c)) cs
  end.

Lemma get_minimal_distance_eq v x d cs : get_minimal_distance v (PTree x d cs) = dist_go v None cs.
Proof. done. Qed.

(** [r] is the least value of [f] on the trees satisfying [P] *)
Lemma dist_go_child v cs k : ∀ m, (∀ c, c ∈ cs → depth_level c = k) → (∃ c, c ∈ cs ∧ origin c = v) → dist_go v m cs = Some k.
Proof.
  induction cs as [|c cs IH]; intros m Hk (c' & Hc & Hv); [by apply elem_of_nil in Hc|]. cbn [dist_go].
  case_decide as Hd; [f_equal; apply Hk; left|]. apply IH; [intros; apply Hk; by right|].
  apply elem_of_cons in Hc as [->|Hc]; [done|]. eauto.
Qed.
Lemma dist_go_other v cs : ∀ m, (∀ c, c ∈ cs → origin c ≠ v) → dist_go v m cs = foldl (λ m c, omin m (get_minimal_distance v c)) m cs.
Proof.
  induction cs as [|c cs IH]; intros m Hk; [done|]. cbn [dist_go foldl]. rewrite decide_False by (apply Hk; left).
  apply IH. intros; apply Hk; by right.
Qed.

Definition dmin_of (S : nat → Prop) (r : option nat) : Prop :=
  match r with Some d => S d ∧ ∀ d', S d' → d ≤ d' | None => ∀ d, ¬ S d end.
Lemma dmin_of_union S S' r r' : dmin_of S r → dmin_of S' r' → dmin_of (λ d, S d ∨ S' d) (omin r r').
Proof.
  unfold dmin_of, omin. destruct r as [d|], r' as [d'|]; try naive_solver.
  intros [H1 H2] [H3 H4]. split.
  - destruct (Nat.min_spec d d') as [[_ ->]|[_ ->]]; tauto.
  - intros e [He|He]; [apply H2 in He|apply H4 in He]; lia.
Qed.
Lemma dmin_of_ext S S' r : (∀ d, S d ↔ S' d) → dmin_of S r → dmin_of S' r.
Proof. unfold dmin_of. intros H. destruct r; setoid_rewrite H; done. Qed.
Lemma foldl_dmin {A} (f : A → option nat) (P : A → nat → Prop) l : ∀ m S, dmin_of S m → (∀ x, x ∈ l → dmin_of (P x) (f x)) →
  dmin_of (λ d, S d ∨ ∃ x, x ∈ l ∧ P x d) (foldl (λ m x, omin m (f x)) m l).
Proof.
  induction l as [|x l IH]; intros m S Hm Hl; cbn [foldl].
  - eapply dmin_of_ext; [|exact Hm]. intros d. split; [by left|]. intros [?|(x & Hx & _)]; [done|by apply elem_of_nil in Hx].
  - eapply dmin_of_ext; [|apply (IH _ (λ d, S d ∨ P x d)); [apply dmin_of_union; [done|apply Hl; left]|intros; apply Hl; by right]].
    intros d. cbn beta. setoid_rewrite elem_of_cons. naive_solver.
Qed.

Lemma get_minimal_distance_abs v t : twf t →
  dmin_of (λ d, ∃ p, tpath t (p ++ [v]) ∧ d = depth_level t + length p + 1) (get_minimal_distance v t).
Proof.
  induction t as [x d cs IH] using ptree_ind'. rewrite Forall_forall in IH. intros Hwf. inversion Hwf as [t0 Hnd Hc Heq]. subst t0.
  cbn [children depth_level] in *. rewrite get_minimal_distance_eq.
  destruct (decide (Exists (λ c, origin c = v) cs)) as [Hex|Hex].
  - apply Exists_exists in Hex as (c & Hcc & Hv). rewrite (dist_go_child v cs (d + 1)).
    + split.
      * exists []. split; [|cbn; lia]. apply occurs_cases. exists c. split; [done|]. by left.
      * intros d' (p & _ & ->). lia.
    + intros c' Hc'. by apply Hc.
    + eauto.
  - assert (∀ c, c ∈ cs → origin c ≠ v) as Hno by (intros c Hcc Hv; apply Hex, Exists_exists; eauto).
    rewrite dist_go_other by done.
    eapply dmin_of_ext; [|apply (foldl_dmin (get_minimal_distance v) (λ c d', ∃ p, tpath c (p ++ [v]) ∧ d' = depth_level c + length p + 1) cs None (λ _, False))].
    + intros d'. cbn beta. split.
      * intros [[]|(c & Hcc & p & Hp & ->)]. exists (origin c :: p). split; [apply occurs_cases; exists c; split; [done|]; right; eauto|].
        rewrite (proj1 (Hc c Hcc)). cbn. lia.
      * intros (p & Hp & ->). right. apply occurs_cases in Hp as (c & Hcc & [[_ Hv]|(p' & -> & Hp')]); [by apply Hno in Hv|].
        exists c. split; [done|]. exists p'. split; [done|]. rewrite (proj1 (Hc c Hcc)). cbn. lia.
    + intros d' [].
    + intros c Hcc. apply IH; [done|]. by apply Hc.
Qed.

Lemma get_minimal_distance_ok v t : twf t → depth_level t = 0 →
  match get_minimal_distance v t with Some d => t_distance t v d | None => ¬ t_occurs t v end.
Proof.
  intros Hwf H0. pose proof (get_minimal_distance_abs v t Hwf) as H. rewrite H0 in H.
  destruct (get_minimal_distance v t) as [d|]; cbn [dmin_of] in H.
  - destruct H as [(p & Hp & ->) Hmin]. split; [by exists p|]. intros p' Hp'. apply Hmin. eauto.
  - intros [p Hp]. eapply H. eauto.
Qed.

(** ** is_reachable, is_legal_cond_set *)
Definition reach_go (v : node) (X : list node) := fix go (cs : list ptree) : bool :=
  match cs with
  | [] => false
  | c :: cs =>
    if decide (origin c = v) then true else
    if decide (origin c ∈ X) then (if t_reachable v X c then true else go cs) else go cs
  end.
Lemma t_reachable_eq v X x d cs : t_reachable v X (PTree x d cs) = if decide (X = []) then false else reach_go v X cs.
Proof. done. Qed.
Lemma reach_go_spec v X cs : reach_go v X cs = true ↔ ∃ c, c ∈ cs ∧ (origin c = v ∨ (origin c ∈ X ∧ t_reachable v X c = true)).
Proof.
  induction cs as [|c cs IH]; cbn [reach_go].
  - split; [done|]. by intros (c & ?%elem_of_nil & _).
  - assert ((if decide (origin c = v) then true else if decide (origin c ∈ X) then (if t_reachable v X c then true else reach_go v X cs) else reach_go v X cs) = true ↔
      (origin c = v ∨ (origin c ∈ X ∧ t_reachable v X c = true)) ∨ reach_go v X cs = true) as ->.
    { repeat case_decide; [tauto| |tauto]. destruct (t_reachable v X c); naive_solver. }
    rewrite IH. split.
    + intros [?|(c' & ? & ?)]; [exists c; split; [left|done]|exists c'; split; [by right|done]].
    + intros (c' & [->|?]%elem_of_cons & ?); [by left|]. right. eauto.
Qed.
Lemma t_reachable_ok v X t : X ≠ [] → t_reachable v X t = true ↔ ∃ p, tpath t (p ++ [v]) ∧ ∀ u, u ∈ p → u ∈ X.
Proof.
  intros HX. induction t as [x d cs IH] using ptree_ind'. rewrite Forall_forall in IH.
  rewrite t_reachable_eq, decide_False by done. rewrite reach_go_spec. split.
  - intros (c & Hc & [Hv|[Hx Hr]]).
    + exists []. split; [apply occurs_cases; exists c; split; [done|by left]|by intros u ?%elem_of_nil].
    + apply (IH c Hc) in Hr as (p & Hp & Hu). exists (origin c :: p). split.
      * apply occurs_cases. exists c. split; [done|]. right. eauto.
      * intros u [->|?]%elem_of_cons; auto.
  - intros (p & Hp & Hu). apply occurs_cases in Hp as (c & Hc & [[-> Hv]|(p' & -> & Hp')]); [by eauto|].
    exists c. split; [done|]. right. split; [apply Hu; left|]. apply (IH c Hc). exists p'. split; [done|]. intros u ?. apply Hu. by right.
Qed.
Lemma is_legal_cond_set_ok t X : is_legal_cond_set t X = true ↔ t_legal t X.
Proof.
  unfold is_legal_cond_set, t_legal. rewrite forallb_forall. split.
  - intros H v Hv. apply t_reachable_ok; [by intros ->; apply elem_of_nil in Hv|]. apply H. by apply elem_of_list_In.
  - intros H v Hv. apply elem_of_list_In in Hv. apply t_reachable_ok; [by intros ->; apply elem_of_nil in Hv|]. by apply H.
Qed.

(** ** is_pds_path *)
Definition pdsp_go (X : nset) := fix go (cs : list ptree) : bool :=
  match cs with
  | [] => false
  | c :: cs => if decide (origin c ∈ X) then (if is_pds_path c (X ∖ {[origin c]}) then true else go cs) else go cs
  end.
Lemma is_pds_path_eq x d cs X : is_pds_path (PTree x d cs) X = if decide (X = ∅) then true else pdsp_go X cs.
Proof. done. Qed.
Lemma pdsp_go_spec X cs : pdsp_go X cs = true ↔ ∃ c, c ∈ cs ∧ origin c ∈ X ∧ is_pds_path c (X ∖ {[origin c]}) = true.
Proof.
  induction cs as [|c cs IH]; cbn [pdsp_go].
  - split; [done|]. by intros (c & ?%elem_of_nil & _).
  - assert ((if decide (origin c ∈ X) then (if is_pds_path c (X ∖ {[origin c]}) then true else pdsp_go X cs) else pdsp_go X cs) = true ↔
      (origin c ∈ X ∧ is_pds_path c (X ∖ {[origin c]}) = true) ∨ pdsp_go X cs = true) as ->.
    { case_decide; [|tauto]. destruct (is_pds_path c _); naive_solver. }
    rewrite IH. split.
    + intros [?|(c' & ? & ?)]; [exists c; split; [left|done]|exists c'; split; [by right|done]].
    + intros (c' & [->|?]%elem_of_cons & ?); [by left|]. right. eauto.
Qed.
Lemma is_pds_path_ok t : ∀ X, is_pds_path t X = true ↔ ∃ p, tpath t p ∧ NoDup p ∧ list_to_set p = X.
Proof.
  induction t as [x d cs IH] using ptree_ind'. rewrite Forall_forall in IH. intros X. rewrite is_pds_path_eq. case_decide as HX.
  - subst. split; [|done]. intros _. exists []. split; [constructor|]. split; [constructor|done].
  - rewrite pdsp_go_spec. split.
    + intros (c & Hc & HcX & Hp). apply (IH c Hc) in Hp as (p & Hp & Hnd & Hset). exists (origin c :: p). split; [by constructor|].
      split.
      * constructor; [|done]. intros Hin. apply (elem_of_list_to_set (C:=nset)) in Hin. rewrite Hset in Hin. set_solver +Hin.
      * cbn. rewrite Hset. apply set_eq. intros u. rewrite elem_of_union, elem_of_difference, elem_of_singleton.
        destruct (decide (u = origin c)) as [->|]; naive_solver.
    + intros (p & Hp & Hnd & Hset). apply tpath_inv in Hp as [->|(c & p' & -> & Hc & Hp)]; [cbn in Hset; by subst|].
      apply NoDup_cons in Hnd as [Hni Hnd]. exists c. cbn [children] in Hc. split; [done|]. cbn in Hset. split; [set_solver +Hset|].
      apply (IH c Hc). exists p'. split; [done|]. split; [done|]. subst X. apply set_eq. intros u.
      rewrite elem_of_difference, elem_of_union, elem_of_list_to_set, elem_of_singleton.
      destruct (decide (u = origin c)) as [->|]; naive_solver.
Qed.

(** Evaluation of long runs. A graph of the model is a function, so that after many updates every lookup passes through a chain
    of closures. [norm] tabulates such a function; it is the identity by functional extensionality (an axiom of the standard
    library, used only here and in the files about long runs), and so may be inserted anywhere. *)
From Coq Require Import FunctionalExtensionality.
From Verif Require Import Base BaseLemmas ModelGraph ModelMixed ModelPC ModelPAG ModelPDS ModelFCI ModelOICD.

(** the values of [f] on [V] are computed once *)
Definition memo {A} (V : nset) (f : nat → A) : nat → A :=
  let t : gmap nat A := list_to_map ((λ x, (x, f x)) <$> elements V) in
  λ x, match t !! x with Some v => v | None => f x end.
Lemma memo_id {A} V : @memo A V = λ f, f.
Proof.
  extensionality f. extensionality x. unfold memo.
  destruct (list_to_map _ !! x) eqn:E; [|done]. apply elem_of_list_to_map_2, elem_of_list_fmap in E as (y & [= -> ->] & _). done.
Qed.

Definition mark_memo {A} (f : mark → A) : mark → A :=
  let a := f Tail in let b := f Directed in let c := f Circle in λ k, match k with Tail => a | Directed => b | Circle => c end.
Lemma mark_memo_id {A} : @mark_memo A = λ f, f.
Proof. extensionality f. extensionality k. by destruct k. Qed.

Definition norm (g : mgraph) : mgraph := MGraph (mnodes g) (memo (mnodes g) (λ n, mark_memo (mset g n))).
Lemma norm_id : norm = λ g, g.
Proof. extensionality g. unfold norm. rewrite memo_id, mark_memo_id. by destruct g. Qed.
Definition gnorm (g : graph) : graph := Graph (gnodes g) (memo (gnodes g) (gadj g)).
Lemma gnorm_id : gnorm = λ g, g.
Proof. extensionality g. unfold gnorm. rewrite memo_id. by destruct g. Qed.
Definition lnorm (s : lstate) : lstate := LState (norm (ls_graph s)) (ls_sep s) (ls_log s).
Lemma lnorm_id : lnorm = λ s, s.
Proof. extensionality s. unfold lnorm. rewrite norm_id. by destruct s. Qed.

Section tree.
Variable o : order.
Variable fuel : nat.
(** the definitions of ModelPDS with [gnorm] inserted *)
Fixpoint pds_loop_n (n : nat) (g : mgraph) (max_depth : nat) (s : pds_state) : res pds_state :=
  match n with
  | 0 => Diverges
  | S n =>
    match ps_queue s with
    | [] => Ok s
    | (n1, n2, a) :: q =>
      let s := PdsState (gnorm (ps_adj s)) q (ps_nodes s) (ps_tree s) in
      match t_at (ps_tree s) a with
      | None => Raise IndexError
      | Some t2 =>
        if decide (max_depth ≤ depth_level t2) then pds_loop_n n g max_depth s else
        s ← for_ (get_neighbors o (ps_adj s) n2) (pds_step g n1 n2 a) s;
        pds_loop_n n g max_depth s
      end
    end
  end.
Definition create_pds_tree_n (g : mgraph) (root : node) (en : option nset) (max_depth : option nat) : res (ptree * nset) :=
  _ ← match en with
      | None => Ok ()
      | Some V => _ ← assert_ (bool_decide (root ∈ V)); assert_ (bool_decide (V ⊆ mnodes g))
      end;
  adj ← get_skeleton_graph o PAG_T g en;
  let adj := gnorm adj in
  let nb := get_neighbors o adj root in
  adj ← for_ nb (λ v adj, remove_edge adj root v) adj;
  let max_depth := default (size (gnodes adj) - 1) max_depth in
  t ← for_ nb (λ v t, add_branch t v) (PTree root 0 []);
  s ← pds_loop_n fuel g max_depth (PdsState adj (imap (λ i v, (root, v, [i])) nb) nb t);
  Ok (ps_tree s, list_to_set (ps_nodes s) ∖ {[root]}).
Lemma create_pds_tree_n_id : create_pds_tree_n = create_pds_tree o fuel.
Proof.
  assert (∀ n, pds_loop_n n = pds_loop o n) as E.
  { intros n. induction n as [|n IH]; [done|]. extensionality g. extensionality d. extensionality s. cbn [pds_loop_n pds_loop]. rewrite gnorm_id. by rewrite IH. }
  unfold create_pds_tree_n, create_pds_tree. by rewrite gnorm_id, E.
Qed.
End tree.

Section run.
Variable o : order.
Variable ci : citest.
Variable sb tc : bool.
Variable fuel : nat.
Variable V : nset.

(** the definitions of ModelPAG and ModelFCI with [norm] and [memo] inserted *)
Definition pag_pass_n (sep : sepset) (rules : list nat) (g : mgraph) : res (mgraph * bool) :=
  for_ rules (λ i s, rule ← pag_rule o fuel sep i; r ← rule (norm s.1); Ok (r.1, s.2 || r.2)) (g, false).
Fixpoint pag_orient_loop_n (n : nat) (sep : sepset) (rules : list nat) (g : mgraph) : res mgraph :=
  match n with
  | 0 => Diverges
  | S n => r ← pag_pass_n sep rules g; if (r.2 : bool) then pag_orient_loop_n n sep rules r.1 else Ok r.1
  end.
Definition orient_base_n (sep : sepset) (g : mgraph) : res mgraph :=
  g ← pag_v_structures o (norm g) sep; pag_orient_loop_n fuel sep [1; 2; 3; 4] g.
Definition orient_anew_n (sep : sepset) (g : mgraph) : res mgraph :=
  g ← reset_orientations o PAG_T (norm g) Circle None; orient_base_n sep g.
Definition cond_possible_ancestor_n (g : mgraph) (i j : node) : nset → res bool :=
  let fi := memo V (λ z, is_possible_ancestor o fuel g z i (mnodes g)) in
  let fj := memo V (λ z, is_possible_ancestor o fuel g z j (mnodes g)) in
  λ S,
  b ← any_ (o 234 S) (λ z,
    bi ← fi z;
    if (bi : bool) then Ok false else
    bj ← fj z; Ok (negb bj));
  Ok (negb b).
Definition pdsep_range_sets_n (g : mgraph) (i j : node) (r : nat) : res (list (nset * option nat)) :=
  ti ← create_pds_tree_n o fuel g i None (Some r);
  tj ← create_pds_tree_n o fuel g j None (Some r);
  let pa := cond_possible_ancestor_n g i j in
  l ← for_ (get_subsets_list o ti.1 ti.2 r ++ get_subsets_list o tj.1 tj.2 r) (λ c l,
    if decide (i ∈ c.1 ∨ j ∈ c.1) then Ok l else
    b ← pa c.1;
    Ok (if (b : bool) then l ++ [c] else l)) [];
  Ok (sort_by_dist l).
Definition icd_step_0_n (s : lstate) : res lstate :=
  s ← for_ (comb2 (o 140 (mnodes (ls_graph s)))) (λ '(i, j) s, r ← ls_try ci i j [] (lnorm s); Ok r.1) s;
  ls_orient orient_base_n s.
Definition icd_step_1_n (s : lstate) : res (lstate * bool) :=
  r ← for_ (comb2 (o 161 (mnodes (ls_graph s)))) (λ '(i, j) (s : lstate * bool),
    let s := (lnorm s.1, s.2) in
    let g := ls_graph s.1 in
    b ← m_is_connected PAG_T g i j;
    if negb b then Ok s else
    icd_tests ci i j (uniq (combs 1 (o 168 (find_adj PAG_T g i None None ∖ {[j]})) ++
                         combs 1 (o 169 (find_adj PAG_T g j None None ∖ {[i]})))) s) (s, true);
  s ← ls_orient (λ sep g, g ← orient_anew_n sep g; orient_rest o sb tc fuel sep (norm g)) r.1;
  Ok (s, r.2).
Definition icd_step_n (r : nat) (m : gmap (nat * nat) (list (nset * option nat))) (s : lstate) : res (lstate * bool) :=
  s ← for_ (comb2 (o 97 (mnodes (ls_graph s)))) (λ '(i, j) (s : lstate * bool),
    let s := (lnorm s.1, s.2) in
    let g := ls_graph s.1 in
    b ← m_is_connected PAG_T g i j;
    if negb b then Ok s else
    cs ← pdsep_range_sets_n g i j r;
    icd_tests ci i j ((λ c, o 109 c.1) <$> cs) s) (s, true);
  t ← ls_orient (if (s.2 : bool) then orient_rest o sb tc fuel else orient_anew_n) (lnorm s.1);
  Ok (t, s.2).
Definition icd_iteration_n (s : icd_state) : res (icd_state * (bool * nat)) :=
  if ic_done s then Raise RuntimeError else
  let r := ic_size s in
  s ← match r with
      | 0 => t ← icd_step_0_n (ic_ls s); Ok (IcdState t (ic_cond s) (ic_done s) r)
      | 1 => t ← icd_step_1_n (ic_ls s); Ok (IcdState t.1 (ic_cond s) t.2 r)
      | _ => t ← icd_step_n r (ic_cond s) (ic_ls s); Ok (IcdState t.1 (ic_cond s) t.2 r)
      end;
  Ok (IcdState (ic_ls s) (ic_cond s) (ic_done s) (S r), (ic_done s, r)).
Fixpoint icd_loop_n (n : nat) (s : icd_state) : res icd_state :=
  match n with
  | 0 => Diverges
  | S n => r ← icd_iteration_n s; if (r.2.1 : bool) then Ok r.1 else icd_loop_n n r.1
  end.
Definition icd_learn_n (s : icd_state) : res icd_state :=
  icd_loop_n fuel (IcdState (ic_ls s) (ic_cond s) false 0).

Lemma orient_base_n_id : orient_base_n = orient_base o fuel.
Proof.
  unfold orient_base_n, orient_base, pag_orient. rewrite norm_id. extensionality sep. extensionality g. cbn [default].
  assert (∀ n r g, pag_orient_loop_n n sep r g = pag_orient_loop o n fuel sep r g) as H; [|destruct (pag_v_structures _ _ _); [apply H|done..]].
  intros n r. induction n as [|n IH]; intros h; [done|]. cbn [pag_orient_loop_n pag_orient_loop].
  assert (pag_pass_n = pag_pass o fuel) as -> by (unfold pag_pass_n, pag_pass; by rewrite norm_id).
  by destruct (pag_pass _ _ _ _ _) as [[? []]| |]; cbn; try done.
Qed.
Lemma orient_anew_n_id : orient_anew_n = orient_anew o fuel.
Proof. unfold orient_anew_n, orient_anew. by rewrite orient_base_n_id, norm_id. Qed.
Lemma pair_id {A B} : (λ s : A * B, (s.1, s.2)) = λ s, s.
Proof. extensionality s. by destruct s. Qed.
Lemma icd_learn_n_id : icd_learn_n = icd_learn o ci sb tc fuel false.
Proof.
  extensionality s0. unfold icd_learn_n, icd_learn. cut (∀ n s, icd_loop_n n s = icd_loop o ci sb tc fuel false n s); [intros H; apply H|]. clear s0.
  intros n. induction n as [|n IH]; intros s; [done|]. cbn [icd_loop_n icd_loop].
  assert (icd_iteration_n s = icd_iteration o ci sb tc fuel false s) as ->; [|destruct (icd_iteration _ _ _ _ _ _ _) as [[? [[] ?]]| |]; cbn; try done; apply IH].
  unfold icd_iteration_n, icd_iteration. destruct (ic_done s); [done|].
  assert (icd_step_0_n = icd_step_0 o ci fuel) as ->.
  { unfold icd_step_0_n, icd_step_0. by rewrite orient_base_n_id, lnorm_id. }
  assert (icd_step_1_n = icd_step_1 o ci sb tc fuel) as ->.
  { unfold icd_step_1_n, icd_step_1. rewrite orient_anew_n_id, lnorm_id, norm_id. extensionality t. f_equal.
    f_equal. extensionality p. destruct p as [i j]. extensionality u. by destruct u. }
  assert (∀ r m, icd_step_n r m = icd_step o ci sb tc fuel false r m) as E.
  { intros r m. unfold icd_step_n, icd_step, pdsep_range_sets_n, cond_possible_ancestor_n. rewrite orient_anew_n_id, lnorm_id, !memo_id, create_pds_tree_n_id. extensionality t. f_equal.
    f_equal. extensionality p. destruct p as [i j]. extensionality u. by destruct u. }
  destruct (ic_size s) as [|[|r]]; [done..|]. by rewrite E.
Qed.
End run.

(** dag.py 156-182 with [gnorm] and [memo] inserted; the ancestors are computed once for all calls *)
Definition dsep_n (o : order) (fuel : nat) (g : graph) : node → node → list node → res bool :=
  let g := gnorm g in
  let anc := memo (gnodes g) (λ x, get_ancestors o fuel g x (gnodes g)) in
  λ i j cond,
  a1 ← anc i; a2 ← anc j;
  anc ← for_ cond (λ c acc, a ← anc c; Ok (acc ∪ a)) (∅ ∪ a1 ∪ a2);
  m ← for_ (o 174 anc) (λ n m, moralize_node o g anc n (gnorm m)) (empty_graph anc);
  b ← is_reachable o fuel (gnorm m) i j (list_to_set cond);
  Ok (negb b).
Lemma dsep_n_id o fuel g : dsep_n o fuel g = dsep o fuel g.
Proof. unfold dsep_n, dsep. by rewrite gnorm_id, memo_id. Qed.
Definition dsep_ci_n (o : order) (fuel : nat) (d : graph) : citest :=
  let f := dsep_n o fuel d in λ _ x y zz, match f x y zz with Ok b => b | _ => false end.
Lemma dsep_ci_n_id o fuel d : dsep_ci_n o fuel d = dsep_ci o fuel d.
Proof. unfold dsep_ci_n, dsep_ci. by rewrite dsep_n_id. Qed.

(** two loops whose bodies agree as long as an invariant holds, which may end with the loop *)
Lemma for_brk_ext_inv {A S} (Inv : S → Prop) (l : list A) (f f' : A → S → res (S * bool)) s : Inv s →
  (∀ x s, Inv s → f x s = f' x s) → (∀ x s s', Inv s → f x s = Ok (s', false) → Inv s') → for_brk l f s = for_brk l f' s.
Proof.
  intros Hs H1 H2. revert s Hs. induction l as [|x l IH]; intros s Hs; cbn; [done|]. rewrite <-(H1 _ _ Hs).
  destruct (f x s) as [[s' []]| |] eqn:E; cbn; [done| |done..]. apply IH. by eapply H2.
Qed.

Lemma bind_ext {A B} (m : res A) (f g : A → res B) : (∀ a, f a = g a) → m ≫= f = m ≫= g.
Proof. intros H. destruct m; [apply H|done..]. Qed.
Lemma for_ext_all {A S} (l : list A) (f g : A → S → res S) s : (∀ x s, f x s = g x s) → for_ l f s = for_ l g s.
Proof. intros H. revert s. induction l as [|x l IH]; intros s; [done|]. cbn. rewrite H. apply bind_ext. intros t. apply IH. Qed.

Definition onorm (s : ostate) : ostate := OState (lnorm (os_ls s)) (os_done s).
Lemma onorm_id : onorm = λ s, s.
Proof. extensionality s. unfold onorm. rewrite lnorm_id. by destruct s. Qed.

Section orun.
Variable o : order.
Variable ci : citest.
Variable sb tc : bool.
Variable fuel : nat.
Variable ord : list node.
Variable mcs : option nat.

(** the definitions of ModelOICD with [norm] inserted *)
Definition o_orient_n (anytime : bool) (sep : sepset) (g : mgraph) : res mgraph :=
  g ← o_reset ord (norm g); g ← orient_base_n o fuel sep g; if anytime then Ok (norm g) else orient_rest o sb tc fuel sep (norm g).
Definition o_orient_graph_n (anytime : bool) (s : ostate) : res ostate :=
  t ← ls_orient (o_orient_n anytime) (os_ls s); Ok (OState t (os_done s)).
Definition o_r0_n (b : nat) (s : ostate) : res ostate :=
  base ← order_at ord b;
  for_ (take b ord) (λ a s, d ← done_get s base a; if (d : bool) then Ok s else Ok (o_try0 ci a base s)) (onorm s).
Definition o_r1_n (l1 l2 : nat) (b : nat) (s : ostate) : res ostate :=
  base ← order_at ord b;
  let anc : nset := list_to_set (take b ord) in
  for_ (o l1 anc) (λ a s,
    c ← m_is_connected PAG_T (ls_graph (os_ls s)) a base;
    if negb c then Ok s else
    d ← done_get s base a;
    if (d : bool) then Ok s else
    for_brk (o l2 (find_adj PAG_T (ls_graph (os_ls s)) base (Some (anc ∖ {[a]})) None)) (λ z s, o_try ci a base [z] s) s) (onorm s).
Definition o_cond_possible_ancestor_n (g : mgraph) (a b : nat) : nset → res bool :=
  let anc := order_at ord a in let base := order_at ord b in
  let fa := match anc with Ok anc => memo (mnodes g) (λ z, is_possible_ancestor o fuel g z anc (list_to_set (take a ord) ∪ {[anc]})) | _ => λ _, Ok false end in
  let fb := match base with Ok base => memo (mnodes g) (λ z, is_possible_ancestor o fuel g z base (list_to_set (take b ord) ∪ {[base]})) | _ => λ _, Ok false end in
  λ S, _ ← anc; _ ← base;
  r ← any_ (o 71 S) (λ z, p ← fa z; if (p : bool) then Ok false else p ← fb z; Ok (negb p));
  Ok (negb r).
Definition o_level_n (l : nat) (r : nat) (b : nat) (s : ostate) : res (ostate * bool) :=
  base ← order_at ord b;
  t ← create_pds_tree_n o fuel (ls_graph (os_ls s)) base (Some (list_to_set (take (S b) ord))) (Some r);
  let cs := sort_by_dist (get_subsets_list o t.1 t.2 r) in
  for_ (seq 0 b) (λ ai (s : ostate * bool),
    a ← order_at ord ai;
    d ← done_get s.1 base a;
    if (d : bool) then Ok s else
    let s := (OState (lnorm (os_ls s.1)) (<[(base, a) := true]> (os_done s.1)), s.2) in
    c ← m_is_connected PAG_T (ls_graph (os_ls s.1)) a base;
    if negb c then Ok s else
    let pa := o_cond_possible_ancestor_n (ls_graph (os_ls s.1)) ai b in
    for_brk cs (λ c (s : ostate * bool),
      if decide (a ∈ c.1) then Ok (s, false) else
      p ← pa c.1;
      if negb p then Ok (s, false) else
      r ← o_try ci a base (o l c.1) s.1;
      Ok (if (r.2 : bool) then ((r.1, s.2), true)
          else ((OState (os_ls r.1) (<[(base, a) := false]> (os_done r.1)), false), false))) s) (s, true).
Definition o_learn_node_n (b : nat) (s : ostate) : res ostate :=
  base ← order_at ord b;
  let mx := match mcs with Some m => (b - 1) `min` m | None => b - 1 end in
  s ← o_r0_n b s;
  s ← o_orient_graph_n true s;
  if decide (mx = 0) then Ok s else
  s ← o_r1_n 113 119 b s;
  s ← o_orient_graph_n true s;
  if decide (mx = 1) then Ok s else
  for_brk (seq 2 (mx - 1)) (λ r s,
    if all_done ord b base s then Ok (s, true) else
    t ← o_level_n 157 r b s;
    s ← o_orient_graph_n true t.1; Ok (s, false)) s.
Definition o_learn_local_n (s : ostate) : res ostate :=
  s ← for_ (seq 1 (size (mnodes (ls_graph (os_ls s))) - 1)) o_learn_node_n s;
  o_orient_graph_n false s.
Definition o_r_node_n (r b : nat) (s : ostate) : res (ostate * bool) :=
  base ← order_at ord b;
  if all_done ord b base s then Ok (s, true) else o_level_n 265 r b s.
Definition o_learn_global_n (s : ostate) : res ostate :=
  let n := size (mnodes (ls_graph (os_ls s))) in
  s ← for_ (seq 1 (n - 1)) o_r0_n s;
  s ← o_orient_graph_n true s;
  s ← for_ (seq 2 (n - 2)) (o_r1_n 209 215) s;
  s ← o_orient_graph_n true s;
  let m := match mcs with Some m => m + 1 | None => (n - 2) + 1 end in
  s ← for_brk (seq 2 (m - 2)) (λ r (s : ostate * bool),
    s ← for_ (seq (r + 1) (n - (r + 1))) (λ b (s : ostate * bool),
      t ← o_r_node_n r b s.1; Ok (t.1, s.2 && t.2)) s;
    if (s.2 : bool) then Ok (s, true) else
    t ← o_orient_graph_n true s.1; Ok ((t, s.2), false)) (s, true);
  o_orient_graph_n false s.1.
Definition o_learn_n (loc : bool) (s : ostate) : res ostate := if loc then o_learn_local_n s else o_learn_global_n s.

Lemma o_cond_possible_ancestor_n_id g a b : o_cond_possible_ancestor_n g a b = λ S, o_cond_possible_ancestor o fuel ord g S a b.
Proof.
  extensionality S. unfold o_cond_possible_ancestor_n, o_cond_possible_ancestor.
  destruct (order_at ord a); [|done..]. destruct (order_at ord b); [|done..]. by rewrite memo_id.
Qed.
Lemma o_learn_n_id : o_learn_n = o_learn o ci sb tc fuel ord mcs.
Proof.
  assert (o_orient_graph_n = o_orient_graph o sb tc fuel ord) as Eo.
  { unfold o_orient_graph_n, o_orient_graph, o_orient_n, o_orient. by rewrite orient_base_n_id, norm_id. }
  assert (o_r0_n = o_r0 ci ord) as E0.
  { unfold o_r0_n, o_r0. by rewrite onorm_id. }
  assert (o_r1_n = o_r1 o ci ord) as E1.
  { unfold o_r1_n, o_r1. by rewrite onorm_id. }
  assert (o_level_n = o_level o ci fuel ord) as El.
  { extensionality l. extensionality r. extensionality b. extensionality s. unfold o_level_n, o_level. rewrite lnorm_id, create_pds_tree_n_id.
    apply bind_ext. intros base. apply bind_ext. intros t. apply for_ext_all. intros ai u. apply bind_ext. intros a. apply bind_ext. intros d. destruct d; [done|].
    apply bind_ext. intros c. destruct c; [|done]. cbn [negb].
    apply (for_brk_ext_inv (λ v : ostate * bool, ls_graph (os_ls v.1) = ls_graph (os_ls u.1))); [done| |].
    - intros c v Hv. destruct (decide _); [done|]. cbn [os_ls fst]. rewrite Hv. by rewrite o_cond_possible_ancestor_n_id.
    - intros c v v' Hv. cbn [os_ls fst]. destruct (decide _); [by intros [= <-]|]. rewrite o_cond_possible_ancestor_n_id.
      destruct (o_cond_possible_ancestor _ _ _ _ _ _ _) as [[]| |]; [|by intros [= <-]|done..]. cbn -[o_try].
      unfold o_try, ls_try. destruct (ci _ _ _ _); [done|]. cbn. by intros [= <-]. }
  unfold o_learn_n, o_learn, o_learn_local_n, o_learn_local, o_learn_global_n, o_learn_global, o_learn_node_n, o_learn_node, o_r_node_n, o_r_node.
  by rewrite Eo, E0, E1, El.
Qed.
End orun.

(** Property C54: explanations. *)
From Verif Require Import Base BaseLemmas ModelGraph Spec ModelMixed SpecMixed ModelPAG ModelPDS SpecPDS ModelPC ModelFCI ModelExplain SpecExplain
  ProofMixed2 ProofPDS5 ProofExplain.

(** The target is one of the tokens: exactly the explaining subsets of least size, or all of them, smaller ones first *)
Theorem C54_exhaustive_partial : ∀ tokens target expl minimal, target ∈ tokens →
  returns (exhaustive_search tokens target expl minimal) (λ r,
    (if minimal then exactly_minimal (explains tokens target expl) length r else ∀ c, c ∈ r ↔ explains tokens target expl c) ∧
    (NoDup tokens → NoDup r) ∧ in_order (λ c d, length c ≤ length d) r).
Proof. exact exhaustive_ok. Qed.
Print Assumptions C54_exhaustive_partial.

(** Otherwise the set of all tokens is never tried: the claim is false. *)
Theorem C54_exhaustive_refuted : ∃ tokens target expl, NoDup tokens ∧ target ∉ tokens ∧ explains tokens target expl tokens ∧
  exhaustive_search tokens target expl true = Ok [].
Proof.
  exists [1; 2], 0, (λ c, bool_decide (length c = 2)). split; [repeat constructor; set_solver|]. split; [set_solver|]. split; [|by vm_compute].
  split; [done|]. split; [done|]. split; [set_solver|by vm_compute].
Qed.
Print Assumptions C54_exhaustive_refuted.

Example C54_exhaustive_case :
  exhaustive_search [5; 1; 7; 3] 7 (λ c, bool_decide (8 ≤ sum_list c)) true = Ok [[5; 3]] ∧
  exhaustive_search [5; 1; 7; 3] 7 (λ c, bool_decide (6 ≤ sum_list c)) true = Ok [[5; 1]; [5; 3]] ∧
  exhaustive_search [5; 1; 7; 3] 7 (λ c, bool_decide (6 ≤ sum_list c)) false = Ok [[5; 1]; [5; 3]; [5; 1; 3]] ∧
  exhaustive_search [5; 1; 7; 3] 7 (λ c, bool_decide (10 ≤ sum_list c)) true = Ok [].
Proof. by vm_compute. Qed.

(** CLEANN: exactly the explaining sets of least size (or all explaining sets) among the sets of at most max_set_size nodes of the
    possible-d-sep tree of the target in which every node is reached inside the set; smaller ones, then nearer ones, first *)
Theorem C54_cleann : ∀ o fuel g target ms mr expl minimal, iter_ok o → mg_wf g → target ∈ mnodes g →
  size (mnodes g) * size (mnodes g) + size (mnodes g) < fuel →
  ∃ t X, pds_tree_spec g (mnodes g) target (default (size (mnodes g) - 1) mr) t X ∧
    let P := tree_explains t X (default (size X) ms) (λ Y, expl (o 92 Y)) in
    returns (explain o fuel g target ms mr (Some expl) minimal) (λ r,
      (if minimal then exactly_minimal P size r.*1 else ∀ Y, Y ∈ r.*1 ↔ P Y) ∧
      NoDup r.*1 ∧ in_order smaller_or_nearer r ∧ ∀ Y d, (Y, d) ∈ r → ∃ n, d = Some n ∧ t_total t Y n).
Proof. exact explain_ok. Qed.
Print Assumptions C54_cleann.

(** without a test: the set of all nodes of the tree, unless it is larger than max_set_size *)
Theorem C54_cleann_no_test : ∀ o fuel g target ms mr minimal, iter_ok o → mg_wf g → target ∈ mnodes g →
  size (mnodes g) * size (mnodes g) + size (mnodes g) < fuel →
  ∃ t X, pds_tree_spec g (mnodes g) target (default (size (mnodes g) - 1) mr) t X ∧
    explain o fuel g target ms mr None minimal = Ok (match ms with Some m => if decide (size X ≤ m) then [(X, Some m)] else [] | None => [(X, Some (size X))] end).
Proof. exact explain_none_ok. Qed.
Print Assumptions C54_cleann_no_test.

(** 0 o-> 1 <-o 2, 2 o-> 3 <-> 1 ... *)
Definition e54 : mgraph := mk_mg [0;1;2;3] (pag_ 0 Circle Directed 1 ++ pag_ 2 Circle Directed 1 ++ pag_ 2 Circle Directed 3).
Definition e54_show (r : res (list (nset * option nat))) : list (list nat * option nat) :=
  match r with Ok l => (λ x, (filter (λ v, v ∈ x.1) (seq 0 4), x.2)) <$> l | _ => [] end.
Example C54_cleann_case : mg_wf e54 ∧ 0 ∈ mnodes e54 ∧
  e54_show (explain ord_up 30 e54 0 None None (Some (λ c, bool_decide (2 ∈ c))) true) = [([1;2], Some 3)] ∧
  e54_show (explain ord_down 30 e54 0 None None (Some (λ c, bool_decide (1 ∈ c))) true) = [([1], Some 1)] ∧
  e54_show (explain ord_up 30 e54 0 None None (Some (λ c, bool_decide (1 ∈ c))) false) = [([1], Some 1); ([1;2], Some 3)] ∧
  e54_show (explain ord_up 30 e54 0 (Some 1) None (Some (λ c, bool_decide (2 ∈ c))) true) = [] ∧
  e54_show (explain ord_up 30 e54 0 None (Some 1) (Some (λ c, bool_decide (2 ∈ c))) true) = [] ∧
  e54_show (explain ord_up 30 e54 0 None None None true) = [([1;2], Some 2)].
Proof. split; [apply mk_mg_wf; by vm_compute|]. split; [apply (bool_decide_unpack _); by vm_compute|]. by vm_compute. Qed.

(** ** C97 *)
(** however often explain is called, the graph is learned once; every answer is that of a fresh search in that graph, whatever was asked
    before; for every target the results of the last call for it that did not raise are stored *)
Theorem C97_calls : ∀ o fuel learn tester minimal g c cs, learn 0 = Ok g →
  ∃ rs, cleann_calls o fuel learn tester minimal cleann_init (c :: cs) =
    (CState (Some g) 1 rs, (λ c, explain o fuel g (ec_target c) (ec_size c) (ec_range c) ((λ f l, f l (ec_target c)) <$> tester) minimal) <$> (c :: cs)) ∧
    ∀ t r, rs !! t = Some r ↔ latest_result (call_results o fuel tester minimal g) (c :: cs) t r.
Proof.
  intros o fuel learn tester minimal g c cs Hl. rewrite (calls_first _ _ _ _ _ g) by done.
  destruct (calls_learned o fuel learn tester minimal g 1 ∅ (c :: cs)) as (rs & E & Hrs). exists rs. split; [done|].
  intros t r. rewrite Hrs. split; [|by left]. intros [?|[H _]]; [done|]. by rewrite lookup_empty in H.
Qed.
Print Assumptions C97_calls.

(** what is stored for a call: the tree of the target, its nodes, its depth, and the answer *)
Theorem C97_stored : ∀ o fuel tester minimal g c, iter_ok o → mg_wf g → ec_target c ∈ mnodes g →
  size (mnodes g) * size (mnodes g) + size (mnodes g) < fuel →
  ∃ r, call_results o fuel tester minimal g c = Ok r ∧
    pds_tree_spec g (mnodes g) (ec_target c) (default (size (mnodes g) - 1) (ec_range c)) (er_tree r) (er_set r) ∧
    er_depth r = get_max_depth (er_tree r) ∧
    explain o fuel g (ec_target c) (ec_size c) (ec_range c) ((λ f l, f l (ec_target c)) <$> tester) minimal = Ok (er_expl r).
Proof.
  intros o fuel tester minimal g c Ho Hwf Ht Hf. rewrite <-call_results_explain.
  assert (∃ l, explain o fuel g (ec_target c) (ec_size c) (ec_range c) ((λ f l, f l (ec_target c)) <$> tester) minimal = Ok l) as [l El].
  { destruct tester as [f|]; cbn [fmap option_fmap option_map].
    - destruct (C54_cleann o fuel g (ec_target c) (ec_size c) (ec_range c) (λ l, f l (ec_target c)) minimal Ho Hwf Ht Hf) as (t & X & _ & H).
      cbn zeta in H. apply returns_ok in H as (l & E & _). by exists l.
    - destruct (C54_cleann_no_test o fuel g (ec_target c) (ec_size c) (ec_range c) minimal Ho Hwf Ht Hf) as (t & X & _ & E). eauto. }
  rewrite <-call_results_explain in El. pose proof (create_pds_tree_ok o fuel g (ec_target c) None (ec_range c) Ho Hwf Ht ltac:(done) Hf) as (tX & E & Hspec)%returns_ok.
  destruct (call_results o fuel tester minimal g c) as [r| |] eqn:Er; [|done..]. exists r. split; [done|].
  unfold call_results, explain_results in Er. rewrite E in Er. cbn [mbind res_bind] in Er. destruct (explain_search _ _ _ _ _); [|done..].
  cbn [mbind res_bind] in Er. injection Er as <-. cbn [er_tree er_set er_depth er_expl]. split_and!; done.
Qed.
Print Assumptions C97_stored.

(** a call in which learning fails leaves the object as it was, and the next call learns again *)
Theorem C97_learning_fails : ∀ o fuel learn tester minimal e st c, cl_graph st = None → learn (cl_learns st) = Raise e →
  cleann_call o fuel learn tester minimal st c = (CState None (S (cl_learns st)) (cl_results st), Raise e).
Proof. intros o fuel learn tester minimal e st c Hg Hl. unfold cleann_call. rewrite Hg. cbn [fst snd]. by rewrite Hl. Qed.
Print Assumptions C97_learning_fails.

Example C97_case :
  let r := cleann_calls ord_up 30 (λ k, if decide (k = 0) then Ok e54 else Raise RuntimeError) (Some (λ c t, bool_decide (2 - t ∈ c))) true cleann_init
    [ECall 0 None None; ECall 2 None None; ECall 0 (Some 1) None] in
  cl_learns r.1 = 1 ∧ e54_show <$> r.2 = [[([1;2], Some 3)]; [([0;1], Some 3)]; []] ∧
  (λ t, e54_show (from_option (λ r, Ok (er_expl r)) Diverges (cl_results r.1 !! t))) <$> [0;1;2] = [[]; []; [([0;1], Some 3)]].
Proof. by vm_compute. Qed.

(** Properties C53 and C77: random graphs and sampled data. *)
From Coq Require Import QArith.
From Verif Require Import Base BaseLemmas ModelGraph Spec ModelPerf ModelSynth SpecSynth ProofGraph3 ProofPerf3 ProofSynth.
Local Open Scope nat_scope.

(** ** C53 *)
(** Every outcome is an acyclic graph; every pair of nodes is joined independently of the others: it has its own draw, and is joined
    when the draw is below the edge probability. *)
Theorem C53_random_dag : ∀ n k, ∃ ι, own_draw n k (k + n_pairs n) ι ∧ ∀ rnd e,
  returns (create_random_dag rnd n e k) (λ '(g, k'),
    k' = k + n_pairs n ∧ increasing n g ∧ acyclic g ∧ decided rnd n (e / qn (n - 1)) ι g).
Proof.
  intros n k. exists (draw_of n k). split; [exact (draw_own n k)|]. intros rnd e. eapply returns_mono; [apply random_dag_ok|].
  intros [g k'] (H1 & H2 & H3). split; [done|]. split; [done|]. split; [by eapply increasing_acyclic|done].
Qed.
Print Assumptions C53_random_dag.

Theorem C53_max_fan : ∀ ri rs n f, randint_ok ri → sample_ok rs → returns (create_random_dag_max_fan ri rs n f) (λ g,
  increasing n g ∧ acyclic g ∧ ∀ v, size (gadj g v) ≤ f ∧
    (0 < v → v < n → size (gadj g v) = ri v (min v f) ∧ ∀ p, edge g p v ↔ 0 < ri v (min v f) ∧ p ∈ rs (seq 0 v) (ri v (min v f)))).
Proof.
  intros ri rs n f H1 H2. eapply returns_mono; [by apply max_fan_ok|]. intros g [H3 H4]. split; [done|]. split; [by eapply increasing_acyclic|done].
Qed.
Print Assumptions C53_max_fan.

(** the first connected one of the sampled graphs; None when none of the first num_dags_timeout + 1 is connected *)
Theorem C53_connected : ∀ o rnd fuel n e timeout k, iter_ok o → n < fuel → 2 ≤ n →
  returns (create_random_connected_dag o rnd fuel n e timeout k) (λ '(og, k'),
    match og with
    | Some g => increasing n g ∧ weakly_connected g (gnodes g) ∧ ∃ i, i ≤ timeout ∧ is_sample rnd n e k i g ∧
        ∀ j h, j < i → is_sample rnd n e k j h → ¬ weakly_connected h (gnodes h)
    | None => ∀ j h, j ≤ timeout → is_sample rnd n e k j h → ¬ weakly_connected h (gnodes h)
    end).
Proof. exact connected_ok. Qed.
Print Assumptions C53_connected.

Theorem C53_select_latents : ∀ o g v, iter_ok o → wf_graph g → v ∈ select_latent_variables o g ↔ confounder g v.
Proof. exact select_ok. Qed.
Print Assumptions C53_select_latents.

(** Where random.sample accepts a set, and one of the sampled graphs is connected: a connected DAG whose latent nodes are half of the
    roots with two or more children, all children of latent nodes being observed *)
Theorem C53_with_latents_partial : ∀ o rnd rs fuel n e timeout, iter_ok o → sample_ok rs → n < fuel → 2 ≤ n →
  (∃ j h, j ≤ timeout ∧ is_sample rnd n e 0 j h ∧ weakly_connected h (gnodes h)) →
  returns (create_random_dag_with_latents o rnd rs true fuel n e timeout) (λ '(g, obs, lat),
    increasing n g ∧ weakly_connected g (gnodes g) ∧
    (∀ v, v ∈ gnodes g ↔ v ∈ obs ∨ v ∈ lat) ∧ (∀ v, v ∈ lat → v ∉ obs) ∧
    (∀ v, v ∈ lat → confounder g v) ∧
    (∀ v c, v ∈ lat → edge g v c → c ∈ obs) ∧
    ∀ C : nset, (∀ v, v ∈ C ↔ confounder g v) → size lat = size C / 2).
Proof. exact latents_ok. Qed.
Print Assumptions C53_with_latents_partial.

(** The full claim is false of create_random_dag_with_latents: when the search times out it raises AttributeError, and
    create_random_connected_dag raises AssertionError for fewer than two nodes. *)
Theorem C53_timeout_refuted : ∀ o rs sets fuel timeout, iter_ok o → 2 < fuel →
  create_random_dag_with_latents o (λ _, 1 # 2) rs sets fuel 2 (1 # 4) timeout = Raise AttributeError.
Proof.
  intros o rs sets fuel timeout Ho Hf. apply latents_timeout; [done|done|done|]. intros j h _ Hs Hc.
  assert (∀ a b, ¬ edge h a b) as Hno.
  { intros a b Hab. unfold is_sample in Hs. destruct (random_dag_run (λ _, 1 # 2) 2 (1 # 4) (0 + j * n_pairs 2)) as (g & E & [_ Hi] & Hd).
    rewrite Hs in E. injection E as <- _. destruct (Hi a b Hab) as [H1 H2]. apply Hd in Hab; [|done|done]. by vm_compute in Hab. }
  destruct (random_dag_run (λ _, 1 # 2) 2 (1 # 4) (0 + j * n_pairs 2)) as (g & E & [Hn _] & _). unfold is_sample in Hs. rewrite Hs in E. injection E as <- _.
  assert (rtc (conn_edge h (gnodes h)) 0 1) as Hr by (apply Hc; apply Hn; lia).
  apply rtc_inv in Hr as [?|(y & ([H|H] & _) & _)]; [done|by apply Hno in H|by apply Hno in H].
Qed.
Print Assumptions C53_timeout_refuted.

Theorem C53_small_refuted : ∀ o rnd fuel n e timeout k, n < 2 → create_random_connected_dag o rnd fuel n e timeout k = Raise AssertionError.
Proof. exact connected_small. Qed.
Print Assumptions C53_small_refuted.

(** where random.sample does not accept a set (Python 3.11 and later) the function never returns *)
Theorem C53_sample_refuted : ∀ o rnd rs fuel n e timeout r, iter_ok o → n < fuel →
  create_random_dag_with_latents o rnd rs false fuel n e timeout ≠ Ok r.
Proof. exact latents_311. Qed.
Print Assumptions C53_sample_refuted.

(** draws 1/4 for the pairs 0-1, 1-2, 1-3, ... : the graph 0 --> 1, 1 --> 2 ... *)
Definition e53 : nat → Q := λ k, if decide (k = 6 ∨ k = 7 ∨ k = 11) then (1 # 4)%Q else (3 # 4)%Q.
Definition e53b : nat → Q := λ k, if decide (k = 1 ∨ k = 2 ∨ k = 5 ∨ k = 6) then (1 # 4)%Q else (3 # 4)%Q.
Definition e53_rs : list nat → nat → list nat := λ l k, take k l.
Lemma e53_rs_ok : sample_ok e53_rs.
Proof.
  intros l k H1 H2. unfold e53_rs. split; [|split].
  - rewrite <-(take_drop k l) in H1. by apply NoDup_app in H1 as (? & _).
  - rewrite take_length. lia.
  - intros x Hx. rewrite <-(take_drop k l). apply elem_of_app. by left.
Qed.
Definition gedges (g : graph) : list (nat * nat) := filter (λ e, e.1 ∈ gadj g e.2) (comb2 (seq 0 6)).
Definition gset_list (S : nset) : list nat := filter (λ v, v ∈ S) (seq 0 6).
(** four nodes: the first sample (draws 0-5) has no edge, the second (draws 6-11) is 0 --> 1, 0 --> 2, 2 --> 3 *)
Example C53_case :
  match create_random_connected_dag ord_up e53 5 4 (3 # 2) 7 0 with Ok (Some g, k) => (gedges g, k) | _ => ([], 0) end = ([(0,1);(0,2);(2,3)], 12) ∧
  match create_random_connected_dag ord_up e53 5 4 (3 # 2) 0 0 with Ok (None, k) => k | _ => 0 end = 6 ∧
  match create_random_dag_with_latents ord_up e53 e53_rs true 5 4 (3 # 2) 7 with Ok (g, obs, lat) => (gedges g, gset_list obs, gset_list lat) | _ => ([], [], []) end
    = ([(0,1);(0,2);(2,3)], [0;1;2;3], []) ∧
  match create_random_dag_max_fan (λ v u, min v u) e53_rs 4 2 with Ok g => gedges g | _ => [] end = [(0,1);(0,2);(0,3);(1,2);(1,3)] ∧
  match create_random_dag_with_latents ord_up e53b e53_rs true 6 5 (3 # 2) 7 with Ok (g, obs, lat) => (gedges g, gset_list obs, gset_list lat) | _ => ([], [], []) end
    = ([(0,2);(0,3);(1,3);(1,4)], [1;2;3;4], [0]).
Proof. by vm_compute. Qed.
Example C53_latents_case : ∃ j h, j ≤ 7 ∧ is_sample e53 4 (3 # 2) 0 j h ∧ weakly_connected h (gnodes h).
Proof.
  destruct (proj1 (returns_ok _ _) (C53_connected ord_up e53 5 4 (3 # 2) 7 0 ord_up_ok (ltac:(lia)) (ltac:(lia)))) as ([[g|] k'] & E & H).
  - destruct H as (_ & H1 & i & H2 & H3 & _). exists i, g. split; [exact H2|]. split; [exact H3|exact H1].
  - exfalso. assert (match create_random_connected_dag ord_up e53 5 4 (3 # 2) 7 0 with Ok (None, _) => false | _ => true end = true) as Hb by (by vm_compute).
    by rewrite E in Hb.
Qed.

(** ** C77 *)
Theorem C77_structural_equations : ∀ o fuel g noise sgn mag, iter_ok o → size (gnodes g) < fuel → wf_graph g → acyclic g →
  (∀ v, v ∈ gnodes g ↔ v < size (gnodes g)) → (∀ v p, sgn v p ≤ 1) →
  returns (sample_record o fuel g noise sgn mag) (λ x, ∃ w, solves g noise w x ∧ ∀ v p, (w v p == mag v p ∨ w v p == - mag v p)%Q).
Proof.
  intros o fuel g noise sgn mag H1 H2 H3 H4 H5 H6. eapply returns_mono; [by apply sample_record_ok|]. intros x Hx.
  exists (edge_weight sgn mag). split; [done|]. intros v p. by apply edge_weight_cases.
Qed.
Print Assumptions C77_structural_equations.

Definition e77 : graph := mk_graph [0;1;2;3] [(2,0);(0,1);(2,1);(1,3)].
Example C77_case : wf_graph e77 ∧ acyclic e77 ∧ (∀ v, v ∈ gnodes e77 ↔ v < size (gnodes e77)) ∧
  match sample_record ord_up 5 e77 (λ v, qn (v + 1)) (λ v p, if decide (p = 2) then 0 else 1) (λ v p, qn (v + p)) with Ok x => (λ v, Qred (x v)) <$> [0;1;2;3] | _ => [] end
    = [-5; -12; 3; -44]%Q.
Proof.
  split; [apply mk_graph_wf; by vm_compute|]. split; [apply mk_graph_acyclic; by vm_compute|]. split; [|by vm_compute].
  assert (gnodes e77 = range_set 4) as -> by (apply (bool_decide_unpack _); by vm_compute). intros v. by rewrite range_elem, range_size.
Qed.

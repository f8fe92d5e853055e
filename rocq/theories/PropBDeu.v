(** Properties C89, C90, C91: the BDeu score and the threshold search. *)
From Coq Require Import QArith Reals Lra.
From Verif Require Import Base BaseLemmas ModelGraph Spec ModelMixed SpecMixed ProofGraph3 ProofMixed ProofMixed2 ModelData SpecData ModelCMI SpecCMI ModelBDeu SpecBDeu ProofBDeu.
Local Open Scope nat_scope.

(** ** C89: score_bdeu is the BDeu score with equivalent sample size 1, for every order in which sets are iterated *)
Theorem C89_score : ∀ o gammaln g data ns en, iter_ok o → wf_graph g → dataset data ns →
  (∀ v, v ∈ gnodes g → v < length ns) → default (gnodes g) en ⊆ gnodes g →
  score_bdeu o gammaln (Some g) data ns en = Ok (Some (bdeu gammaln data (λ v, ns !!! v) g (default (gnodes g) en))).
Proof. intros o gl g data ns en Ho Hw Hd HV Hen. by apply score_bdeu_ok. Qed.
Print Assumptions C89_score.

(** it is a sum over the nodes: the scores of two disjoint sets of nodes add up *)
Theorem C89_decomposable : ∀ o gammaln g data ns V1 V2 s1 s2, iter_ok o → wf_graph g → dataset data ns →
  (∀ v, v ∈ gnodes g → v < length ns) → V1 ∪ V2 ⊆ gnodes g → V1 ## V2 →
  score_bdeu o gammaln (Some g) data ns (Some V1) = Ok (Some s1) → score_bdeu o gammaln (Some g) data ns (Some V2) = Ok (Some s2) →
  score_bdeu o gammaln (Some g) data ns (Some (V1 ∪ V2)) = Ok (Some (s1 + s2)%R).
Proof.
  intros o gl g data ns V1 V2 s1 s2 Ho Hw Hd HV Hs Hdis. rewrite !C89_score; [|by simpl; set_solver..]. intros [= <-] [= <-].
  do 2 f_equal. simpl. unfold bdeu. rewrite <-rsum_app. apply rsum_permutation. by apply elements_disj_union.
Qed.
Print Assumptions C89_decomposable.

(** ** C90: DAGs with the same skeleton and the same v-structures have the same score *)
Theorem C90_score_equivalent : ∀ o1 o2 gammaln d e data ns, iter_ok o1 → iter_ok o2 → wf_graph d → wf_graph e → acyclic d → acyclic e →
  same_skeleton d e → same_v_structures d e → dataset data ns → (∀ v, v ∈ gnodes d → v < length ns) →
  ∃ v, score_bdeu o1 gammaln (Some d) data ns None = Ok (Some v) ∧ score_bdeu o2 gammaln (Some e) data ns None = Ok (Some v).
Proof.
  intros o1 o2 gl d e data ns Ho1 Ho2 Wd We Ad Ae Hsk Hvs Hd HV. assert (gnodes d = gnodes e) as En by apply Hsk.
  rewrite (C89_score o1), (C89_score o2); [|done..|by rewrite <-En|done|done|done|done|done|done]. eexists. split; [done|]. do 2 f_equal. simpl.
  symmetry. by apply bdeu_equivalent.
Qed.
Print Assumptions C90_score_equivalent.

(** whichever extension of a PDAG convert_to_dag chooses, the score is the same *)
Theorem C90_any_extension : ∀ o1 o2 gammaln g d e data ns, iter_ok o1 → iter_ok o2 → pd_wf g → extends d g → extends e g →
  dataset data ns → (∀ v, v ∈ mnodes g → v < length ns) →
  ∃ v, score_bdeu o1 gammaln (Some d) data ns None = Ok (Some v) ∧ score_bdeu o2 gammaln (Some e) data ns None = Ok (Some v).
Proof.
  intros o1 o2 gl g d e data ns Ho1 Ho2 Hg Hd He Hdat HV. destruct (extensions_equivalent g d e Hd He) as [H1 H2].
  apply C90_score_equivalent; try done; [by eapply extends_wf..|by apply (ext_acyclic _ _ Hd)|by apply (ext_acyclic _ _ He)|].
  intros v Hv. apply HV. by rewrite <-(ext_nodes _ _ Hd).
Qed.
Print Assumptions C90_any_extension.

(** the chain and the fork *)
Definition d90 : graph := mk_graph [0;1;2] [(0,1);(1,2)].
Definition e90 : graph := mk_graph [0;1;2] [(1,0);(1,2)].
Definition p90 : mgraph := mk_mg [0;1;2] (und_ 0 1 ++ und_ 1 2).
Example p90_wf : pd_wf p90.
Proof. by apply mk_pd_wf; vm_compute. Qed.
Example d90_extends : extends d90 p90.
Proof. apply mk_extends; [by vm_compute|apply mk_graph_acyclic; vm_compute; reflexivity]. Qed.
Example e90_extends : extends e90 p90.
Proof. apply mk_extends; [by vm_compute|apply mk_graph_acyclic; vm_compute; reflexivity]. Qed.
Definition data90 : list (list nat) := [[0;0;1];[1;1;0];[1;0;2];[0;0;1]].
Example data90_ok : dataset data90 [2;2;3].
Proof. split; repeat constructor; simpl; lia. Qed.
Example p90_nodes : ∀ v, v ∈ mnodes p90 → v < length [2;2;3].
Proof. intros v. change (mnodes p90) with (list_to_set [0;1;2] : nset). rewrite elem_of_list_to_set. set_unfold. simpl. lia. Qed.
Example C90_case : pd_wf p90 ∧ extends d90 p90 ∧ extends e90 p90 ∧ edge d90 0 1 ∧ edge e90 1 0 ∧ dataset data90 [2;2;3] ∧
  ∀ v, v ∈ mnodes p90 → v < length [2;2;3].
Proof.
  split_and!; [exact p90_wf|exact d90_extends|exact e90_extends|apply mk_graph_edge; set_solver..|exact data90_ok|exact p90_nodes].
Qed.
Example C89_case : wf_graph d90 ∧ dataset data90 [2;2;3] ∧ (∀ v, v ∈ gnodes d90 → v < length [2;2;3]) ∧
  ({[0]} : nset) ∪ {[1]} ⊆ gnodes d90 ∧ ({[0]} : nset) ## {[1]}.
Proof. split_and!; [by apply mk_graph_wf|exact data90_ok|exact p90_nodes|by apply (bool_decide_unpack _); vm_compute|set_solver]. Qed.

(** ** C91: the threshold search evaluates the structures learned with the thresholds in turn, and returns the last
    threshold with the largest score *)
Theorem C91_search : ∀ o gammaln data ns (T S : Type) fuel (learn : T → S → res (mgraph * S)) ths s, iter_ok o → dataset data ns →
  (∀ th s, returns (learn th s) (λ r, pd_wf r.1 ∧ (∀ v, v ∈ mnodes r.1 → v < length ns) ∧ size (mnodes r.1) < fuel)) →
  returns (search_threshold o gammaln fuel learn data ns ths s) (λ r,
    (∃ gs, learn_all learn ths s = Ok gs ∧ Forall2 (class_score gammaln data (λ v, ns !!! v)) gs r.2) ∧
    length r.2 = length ths ∧
    match r.1 with None => ths = [] | Some th => ∃ i, ths !! i = Some th ∧ last_best r.2 i end).
Proof. intros. by apply search_ok. Qed.
Print Assumptions C91_search.

(** C91, the part that holds: with ascending thresholds the highest of the best thresholds is returned *)
Theorem C91_highest_partial : ∀ o gammaln data ns (S : Type) fuel (learn : R → S → res (mgraph * S)) ths s, iter_ok o → dataset data ns →
  (∀ th s, returns (learn th s) (λ r, pd_wf r.1 ∧ (∀ v, v ∈ mnodes r.1 → v < length ns) ∧ size (mnodes r.1) < fuel)) →
  (∀ i j a b, ths !! i = Some a → ths !! j = Some b → i < j → (a < b)%R) →
  returns (search_threshold o gammaln fuel learn data ns ths s) (λ r, ∀ best, r.1 = Some best →
    ∃ i m, ths !! i = Some best ∧ r.2 !! i = Some m ∧
    ∀ j th sc, ths !! j = Some th → r.2 !! j = Some sc → score_le sc m ∧ (score_le m sc → th <= best)%R).
Proof.
  intros o gl data ns S fuel learn ths s Ho Hd Hl Hasc. eapply returns_mono; [by apply C91_search|].
  intros [best scores] (_ & Hlen & Hb) th Hth. cbn [fst snd] in *. subst best. destruct Hb as (i & Hi & m & Hm & Hmax). exists i, m. split_and!; [done..|].
  intros j th' sc Hj Hsc. destruct (Hmax j sc Hsc) as [H1 H2]. split; [done|]. intros Hle.
  destruct (decide (i < j)) as [Hij|Hij]; [by destruct (H2 Hij)|]. destruct (decide (j = i)) as [->|Hne]; [simplify_eq; lra|].
  left. apply (Hasc j i th' th Hj Hi). lia.
Qed.
Print Assumptions C91_highest_partial.

(** C91 is false for thresholds in another order: the lower of two thresholds with the same structure is returned *)
Theorem C91_refuted : ∃ (learn : R → unit → res (mgraph * unit)) data ns fuel, dataset data ns ∧
  (∀ th s, returns (learn th s) (λ r, pd_wf r.1 ∧ (∀ v, v ∈ mnodes r.1 → v < length ns) ∧ size (mnodes r.1) < fuel)) ∧
  ∀ o gammaln, iter_ok o → ∃ v, search_threshold o gammaln fuel learn data ns [2%R; 1%R] () = Ok (Some 1%R, [v; v]).
Proof.
  exists (λ _ _, Ok (p90, ())), data90, [2;2;3], 4. split; [exact data90_ok|].
  assert (∀ (th : R) (s : unit), returns (Ok (p90, ())) (λ r : mgraph * unit, pd_wf r.1 ∧ (∀ v, v ∈ mnodes r.1 → v < length [2;2;3]) ∧ size (mnodes r.1) < 4)) as HL.
  { intros _ _. cbn [returns fst]. split; [exact p90_wf|]. split; [exact p90_nodes|]. apply (Nat.leb_le 4 4). by vm_compute. }
  split; [exact HL|]. intros o gl Ho.
  pose proof (C91_search o gl data90 [2;2;3] R unit 4 (λ _ _, Ok (p90, ())) [2%R;1%R] () Ho data90_ok HL) as HS.
  destruct (search_threshold _ _ _ _ _ _ _ _) as [[best scores]|e|]; [|done..]. cbn [returns] in HS.
  destruct HS as ((gs & Hgs & HF) & Hlen & Hb). cbn [fst snd] in *. simpl in Hgs. injection Hgs as <-.
  apply Forall2_cons_inv_l in HF as (s1 & sc1 & H1 & HF & ->). apply Forall2_cons_inv_l in HF as (s2 & sc2 & H2 & HF & ->).
  apply Forall2_nil_inv_l in HF as ->. 
  assert (s1 = s2 ∧ ∃ v, s2 = Some v) as [-> [v ->]].
  { destruct s1 as [v1|]; [|exfalso; apply H1; exists d90; exact d90_extends]. destruct s2 as [v2|]; [|exfalso; apply H2; exists d90; exact d90_extends].
    destruct H1 as [_ H1], H2 as [_ H2]. rewrite (H1 d90 d90_extends), (H2 d90 d90_extends). eauto. }
  exists (Some v). destruct best as [th|]; [|done]. destruct Hb as (i & Hi & m & Hm & Hmax).
  destruct i as [|[|i]]; [|simpl in Hi; by simplify_eq|by destruct i].
  exfalso. simpl in Hm. injection Hm as <-. destruct (Hmax 1 (Some v) eq_refl) as [_ Hn]. apply Hn; [lia|]. simpl. lra.
Qed.
Print Assumptions C91_refuted.
(** a learner that meets the hypotheses of C91, with two different structures for two thresholds *)
Example C91_case : ∀ th (s : unit), returns ((λ th s, Ok ((if Rle_dec th 1 then p90 else mk_mg [0;1;2] (dir_ 0 1 ++ dir_ 2 1)), s)) th s)
  (λ r : mgraph * unit, pd_wf r.1 ∧ (∀ v, v ∈ mnodes r.1 → v < length [2;2;3]) ∧ size (mnodes r.1) < 4).
Proof.
  intros th s. cbn [returns fst]. destruct (Rle_dec th 1).
  - split; [exact p90_wf|]. split; [exact p90_nodes|]. apply (Nat.leb_le 4 4). by vm_compute.
  - split; [by apply mk_pd_wf; vm_compute|]. split; [exact p90_nodes|]. apply (Nat.leb_le 4 4). by vm_compute.
Qed.

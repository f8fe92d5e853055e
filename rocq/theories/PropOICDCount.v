(** Property C123: how many CI tests OrderedICD makes, and how often it asks the same question. *)
From Verif Require Import Base BaseLemmas ModelGraph Spec ModelMixed SpecMixed ModelPAG ModelPDS ModelPC SpecPC ModelFCI SpecFCI ModelOICD SpecOICD ProofOICD ProofOICD2 ProofOICD3
  SpecPCCount SpecICDCount ProofICDCount ProofOICDCount PropFCI PropOICD.

(** ** C123 *)
(** whatever the test answers, and in both variants: one call asks about a pair and a set (in any order) at most once, and makes at most
    (k + 1) choose (n, k + 2) tests with k conditioning nodes: k + 1 for every set of k + 2 nodes *)
Theorem C123_call : ∀ o, iter_ok o → ∀ ci V ord, NoDup ord → list_to_set ord = V → ∀ sb tc fuel, size V * size V + size V + 2 < fuel →
  ∀ mcs, (∀ m, mcs = Some m → m + 2 ≤ size V) → ∀ L s loc, o_reach o ci sb tc fuel ord mcs V L s →
  returns (o_learn o ci sb tc fuel ord mcs loc s) (λ t, let log := ls_log (os_ls s) in let log' := ls_log (os_ls t) in
    (∀ q, asked q log' ≤ asked q log + 1) ∧ ∀ k, count_size k log' ≤ count_size k log + (k + 1) * choose (size V) (k + 2)).
Proof.
  intros o Ho ci V ord Hnd HV sb tc fuel Hf mcs Hm L s loc H.
  destruct (proj1 (returns_ok _ _) (C71_calls o Ho ci V ord Hnd HV sb tc fuel Hf mcs Hm L s loc H)) as (t & E & J & Hol & _). rewrite E. cbn [returns]. cbn zeta.
  assert (size V = length ord) as -> by (rewrite <-HV; by apply size_list_to_set).
  eapply new_counts; [done|done|exact (ju_log _ _ _ _ _ J)|]. exact (o_learn_new o Ho ci sb tc fuel ord Hnd mcs loc s t E).
Qed.
Print Assumptions C123_call.

(** the first call of a new learner *)
Theorem C123_first : ∀ o, iter_ok o → ∀ ci V ord, NoDup ord → list_to_set ord = V → ∀ sb tc fuel, size V * size V + size V + 2 < fuel →
  ∀ mcs, (∀ m, mcs = Some m → m + 2 ≤ size V) → ∀ loc,
  returns (s ← oicd_init o ord mcs V; o_learn o ci sb tc fuel ord mcs loc s) (λ t, let log := ls_log (os_ls t) in
    (∀ q, asked q log ≤ 1) ∧ ∀ k, count_size k log ≤ (k + 1) * choose (size V) (k + 2)).
Proof.
  intros o Ho ci V ord Hnd HV sb tc fuel Hf mcs Hm loc.
  destruct (proj1 (returns_ok _ _) (C71_constructor o Ho V ord Hnd HV mcs Hm)) as (s & E & _). rewrite E. cbn [mbind res_bind].
  assert (ls_log (os_ls s) = []) as Es.
  { unfold oicd_init in E. destruct (negb _); [done|]. destruct (match mcs with Some m => _ | None => _ end); [done|]. by injection E as <-. }
  eapply returns_mono; [exact (C123_call o Ho ci V ord Hnd HV sb tc fuel Hf mcs Hm (λ _, True) s loc (or_init _ _ _ _ _ _ _ _ _ s E))|].
  cbn beta zeta. rewrite Es. done.
Qed.
Print Assumptions C123_first.

(** the bound is attained when all answers are "dependent": the tests with 0, 1, 2 and 3 conditioning nodes, in both variants; a second call asks again *)
Definition oicd_counts (loc : bool) : option (list nat) :=
  match oicd_run (λ _ _ _ _, false) None loc with Ok t => Some ((λ k, count_size k (ls_log (os_ls t))) <$> [0; 1; 2; 3]) | _ => None end.
Example C123_case : NoDup eO ∧ list_to_set eO = eV4 ∧ 4 * 4 + 4 + 2 < 30 ∧ (∀ m, None = Some m → m + 2 ≤ 4) ∧
  oicd_counts true = Some [6; 8; 3; 0] ∧ oicd_counts false = Some [6; 8; 3; 0] ∧ (λ k, (k + 1) * choose 4 (k + 2)) <$> [0; 1; 2; 3] = [6; 8; 3; 0] ∧
  match (s ← oicd_run (λ _ _ _ _, false) None true; o_learn ord_down (λ _ _ _ _, false) true true 30 eO None true s) with
  | Ok t => asked ({[0; 1]}, ∅) (ls_log (os_ls t)) | _ => 0 end = 2.
Proof.
  split; [apply (bool_decide_unpack _); by vm_compute|]. split; [apply (bool_decide_unpack _); by vm_compute|]. split; [lia|]. split; [done|].
  split; [by vm_compute|]. split; [by vm_compute|]. split; by vm_compute.
Qed.

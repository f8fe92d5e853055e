(** Specification: the learners as functions of the CI test, and CI tests that are objects with a state. *)
From Coq Require Import QArith.
From Verif Require Import Base ModelGraph Spec ModelMixed ModelPC SpecPC ModelRAI ModelBRAI ModelPAG ModelFCI ModelOICD ModelCI.
Local Open Scope nat_scope.

(** learn_structure of every learner of the library on the nodes V, except the temporal one: a function of the CI test that gives the
    learned graph and the queries, the last one first *)
Inductive learner (V : nset) : (citest → res (mgraph * clog)) → Prop :=
  | learner_pc o ow fuel : iter_ok o → size V * size V + 1 < fuel →
      learner V (λ ci, s ← pc_learn o ci ow fuel V; Ok (pc_graph s, pc_log s))
  | learner_rai o ow fuel : iter_ok o → size V * size V + 1 < fuel →
      learner V (λ ci, s ← rai_learn o ci ow fuel V; Ok (pc_graph s, pc_log s))
  | learner_brai o ow fuel bdeu K (pick : nat → list score → nat) : iter_ok o → size V * size V + 1 < fuel → 0 < K → (∀ n l, l ≠ [] → pick n l < length l) →
      learner V (λ ci, r ← brai_learn o ci ow fuel V true false bdeu K pick; Ok (r.2, pc_log r.1.2))
  | learner_fci o sb tc fuel : iter_ok o → size V * size V + size V + 2 < fuel →
      learner V (λ ci, r ← fci_learn o ci sb tc fuel V; Ok (ls_graph r.1, ls_log r.1))
  | learner_icd o sb tc precalc fuel : iter_ok o → size V * size V + size V + 2 < fuel →
      learner V (λ ci, t ← icd_learn o ci sb tc fuel precalc (icd_init o V); Ok (ls_graph (ic_ls t), ls_log (ic_ls t)))
  | learner_oicd o sb tc fuel ord mcs loc : iter_ok o → size V * size V + size V + 2 < fuel → NoDup ord → list_to_set ord = V →
      (∀ m, mcs = Some m → m + 2 ≤ size V) →
      learner V (λ ci, t ← (s ← oicd_init o ord mcs V; o_learn o ci sb tc fuel ord mcs loc s); Ok (ls_graph (os_ls t), ls_log (os_ls t))).

(** A CI test that is an object with a state; [f t] is its method cond_indep at the t-th call (iteration orders can differ from call to call).
    [object_test f s0] answers after the queries of the log as the object, which is in the state s0 at first, does *)
Section object.
Context {S : Type} (f : nat → node → node → list node → S → res (bool * S)) (s0 : S).
Definition object_test : citest := λ log x y zz,
  match ask f 0 (reverse log.*1) s0 with
  | Ok (_, s) => match f (length log) x y zz s with Ok (b, _) => b | _ => false end
  | _ => false
  end.
(** the object answered all the queries of the log without an exception, and its state is now s *)
Definition served (log : clog) (s : S) : Prop := ask f 0 (reverse log.*1) s0 = Ok (reverse log.*2, s).
End object.

(** the number of different questions with k conditioning nodes: a question is an unordered pair and a set *)
Definition different (k : nat) (log : clog) : nat :=
  size (list_to_set ((λ e : query * bool, ({[e.1.1.1; e.1.1.2]} : nset, list_to_set e.1.2 : nset)) <$> filter (λ e : query * bool, length e.1.2 = k) log) : gset (nset * nset)).

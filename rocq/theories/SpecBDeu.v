(** Specification of the BDeu score with equivalent sample size 1. *)
From Coq Require Import Reals.
From Verif Require Import Base ModelGraph ModelMixed Spec SpecMixed SpecData SpecCMI ModelCMI.
Local Open Scope nat_scope.

(** all configurations of variables with the given cardinalities *)
Fixpoint configs (vs : list nat) : list (list nat) :=
  match vs with [] => [[]] | s :: vs => a ← seq 0 s; (λ c, a :: c) <$> configs vs end.

(** number of records in which the variables have the given values *)
Definition occurs (data : list (list nat)) (vars vals : list nat) : nat := length (filter (λ r, proj vars r = vals) data).

(** Heckerman, Geiger and Chickering 1995 with N'_ijk = 1 / (q_i r_i) *)
Definition bdeu_family (gammaln : R → R) (data : list (list nat)) (card : nat → nat) (ps : list nat) (v : nat) : R :=
  let q := INR (n_configs (card <$> ps)) in let r := INR (card v) in
  rsum (λ c,
    gammaln (1 / q) - gammaln (1 / q + INR (occurs data ps c)) +
    rsum (λ k, gammaln (1 / (q * r) + INR (occurs data (v :: ps) (k :: c))) - gammaln (1 / (q * r))) (seq 0 (card v)))%R
  (configs (card <$> ps)).
Definition bdeu (gammaln : R → R) (data : list (list nat)) (card : nat → nat) (g : graph) (V : nset) : R :=
  rsum (λ v, bdeu_family gammaln data card (elements (gadj g v)) v) (elements V).

(** a data set of categorical variables: every record has a value within its cardinality for each variable *)
Definition dataset (data : list (list nat)) (node_size : list nat) : Prop :=
  Forall (config node_size) data ∧ Forall (λ s, 0 < s) node_size.

(** order of scores, None being minus infinity *)
Definition score_le (a b : option R) : Prop :=
  match a, b with None, _ => True | Some _, None => False | Some a, Some b => (a <= b)%R end.

(** ** Threshold search *)
(** the graphs learned with a sequence of thresholds, the CI test keeping its state in between *)
Fixpoint learn_all {T S G} (learn : T → S → res (G * S)) (ths : list T) (s : S) : res (list G) :=
  match ths with
  | [] => Ok []
  | th :: ths => r ← learn th s; gs ← learn_all learn ths r.2; Ok (r.1 :: gs)
  end.

(** [i] is the position of the last one of the largest scores *)
Definition last_best (scores : list (option R)) (i : nat) : Prop :=
  ∃ m, scores !! i = Some m ∧ ∀ j sc, scores !! j = Some sc → score_le sc m ∧ (i < j → ¬ score_le m sc).

(** the score of the DAGs a graph stands for: minus infinity if there is none, otherwise the score of each of them *)
Definition class_score (gammaln : R → R) (data : list (list nat)) (card : nat → nat) (g : mgraph) (sc : option R) : Prop :=
  match sc with
  | Some v => (∃ d, extends d g) ∧ ∀ d, extends d g → v = bdeu gammaln data card d (gnodes d)
  | None => ¬ ∃ d, extends d g
  end.

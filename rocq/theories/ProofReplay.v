(** A learner depends on the CI test only through the answers in its log. *)
From Coq Require Import QArith.
From Verif Require Import Base BaseLemmas ModelGraph Spec ModelMixed ModelPC SpecPC ModelRAI ModelBRAI ModelPAG ModelPDS ModelFCI ModelOICD ModelTS.
Local Open Scope nat_scope.

Section replay.
Variables ci ci' : citest.

(** [m'] is [m] with the other test: it does the same if the other test gives the same answers *)
Definition rep {A} (l : clog) (lg : A → clog) (m m' : res A) : Prop :=
  ∀ x, m = Ok x → l `suffix_of` lg x ∧ (honest ci' (lg x) → m' = Ok x).

Lemma honest_suffix l l' : l `suffix_of` l' → honest ci' l' → honest ci' l.
Proof. intros [k ->] H p r i j c b E. apply (H (k ++ p) r i j c b). rewrite E. by rewrite <-app_assoc. Qed.
Lemma rep_ok {A} l (lg : A → clog) x : lg x = l → rep l lg (Ok x) (Ok x).
Proof. intros <- y [= <-]. done. Qed.
Lemma rep_raise {A} l (lg : A → clog) e : rep l lg (Raise e) (Raise e).
Proof. by intros y. Qed.
Lemma rep_same {A} l (lg : A → clog) m : (∀ x, m = Ok x → lg x = l) → rep l lg m m.
Proof. intros H x E. by rewrite (H x E). Qed.
Lemma rep_bind {A B} l (lg : A → clog) (lg' : B → clog) m m' f f' :
  rep l lg m m' → (∀ x, rep (lg x) lg' (f x) (f' x)) → rep l lg' (m ≫= f) (m' ≫= f').
Proof.
  intros Hm Hf y E. destruct m as [x| |]; try done. cbn in E. destruct (Hm x eq_refl) as [S1 H1]. destruct (Hf x y E) as [S2 H2].
  split; [by etrans|]. intros Hh. rewrite H1 by (by eapply honest_suffix). cbn. by apply H2.
Qed.
Lemma rep_pure {A B} l (lg : B → clog) (m : res A) f f' : (∀ x, m = Ok x → rep l lg (f x) (f' x)) → rep l lg (m ≫= f) (m ≫= f').
Proof. intros Hf y E. destruct m as [x| |]; try done. by apply (Hf x). Qed.
Lemma rep_for {A S} (lg : S → clog) l (f f' : A → S → res S) : (∀ x s, rep (lg s) lg (f x s) (f' x s)) → ∀ s, rep (lg s) lg (for_ l f s) (for_ l f' s).
Proof.
  intros Hf. induction l as [|x l IH]; intros s; cbn [for_]; [by apply rep_ok|]. eapply rep_bind; [apply Hf|]. exact IH.
Qed.
Lemma rep_brk {A S} (lg : S → clog) l (f f' : A → S → res (S * bool)) : (∀ x s, rep (lg s) (λ r, lg r.1) (f x s) (f' x s)) → ∀ s, rep (lg s) lg (for_brk l f s) (for_brk l f' s).
Proof.
  intros Hf. induction l as [|x l IH]; intros s; cbn [for_brk]; [by apply rep_ok|]. eapply rep_bind; [apply Hf|].
  intros [s' []]; cbn [fst snd]; [by apply rep_ok|apply IH].
Qed.

(** ** PC *)
Lemma honest_cons i j c b l : honest ci' ((i, j, c, b) :: l) → ci' l i j c = b.
Proof. intros H. symmetry. by apply (H [] l i j c b). Qed.
Lemma pc_try_rep i j c s : rep (pc_log s) (λ r : pc_state * bool, pc_log r.1) (pc_try ci i j c s) (pc_try ci' i j c s).
Proof.
  intros x. unfold pc_try. destruct (ci (pc_log s) i j c) eqn:E; intros [= <-]; cbn [pc_log fst].
  all: split; [by eexists [_]|]; intros H; apply honest_cons in H; by rewrite H.
Qed.

Section ordered.
Variable o : order.

Lemma pc_pair_rep ow src k p s : rep (pc_log s) pc_log (pc_pair o ci ow src k p s) (pc_pair o ci' ow src k p s).
Proof.
  unfold pc_pair. destruct p as [i j]. cbv zeta. apply rep_pure. intros b _. destruct (negb b); [by apply rep_ok|]. apply rep_brk. intros c u. apply pc_try_rep.
Qed.
Lemma pc_levels_rep ow fuel : ∀ src k s, rep (pc_log s) pc_log (pc_levels o ci ow fuel src k s) (pc_levels o ci' ow fuel src k s).
Proof.
  induction fuel as [|fuel IH]; intros src k s; cbn [pc_levels]; [by intros x|]. destruct (exit_cond _ _ _); [by apply rep_ok|].
  eapply rep_bind; [apply rep_for; intros p u; apply pc_pair_rep|]. intros u. apply IH.
Qed.
Lemma pc_learn_rep ow fuel V : rep [] pc_log (pc_learn o ci ow fuel V) (pc_learn o ci' ow fuel V).
Proof.
  unfold pc_learn. eapply rep_bind; [unfold pc_skeleton; apply (pc_levels_rep ow fuel _ 0 (pc_init o V))|]. intros s.
  apply rep_pure. intros g _. cbv zeta. apply rep_pure. intros g' _. by apply rep_ok.
Qed.

(** ** RAI *)
Section rai.
Variable ow : bool.
Variable lf : nat.
Lemma refine_and_orient_rep en ex k s : rep (pc_log s) pc_log (refine_and_orient o ci ow lf en ex k s) (refine_and_orient o ci' ow lf en ex k s).
Proof.
  unfold refine_and_orient. eapply rep_bind.
  { unfold refine_exogenous. cbv zeta. apply rep_for. intros n u. apply rep_for. clear u. intros e u. unfold rai_exogenous_pair. cbv zeta.
    apply rep_pure. intros b _. destruct (negb b); [by apply rep_ok|]. apply rep_brk. intros c v. apply pc_try_rep. }
  intros u. eapply (rep_bind _ pc_log).
  { unfold rai_orient. do 2 (apply rep_pure; intros ? _). by apply rep_ok. }
  clear u. intros u. eapply (rep_bind _ pc_log).
  { unfold refine_endogenous. cbv zeta. apply rep_for. intros [i j] v. unfold rai_endogenous_pair. cbv zeta.
    apply rep_pure. intros b _. destruct (negb b); [by apply rep_ok|]. apply rep_brk. intros c w. apply pc_try_rep. }
  clear u. intros u. unfold rai_orient. do 2 (apply rep_pure; intros ? _). by apply rep_ok.
Qed.
Lemma rai_rec_rep fuel : ∀ en ex k s, rep (pc_log s) pc_log (rai_rec o ci ow lf fuel en ex k s) (rai_rec o ci' ow lf fuel en ex k s).
Proof.
  induction fuel as [|fuel IH]; intros en ex k s; cbn [rai_rec]; [by intros x|]. destruct (rai_exit _ _ _ _); [by apply rep_ok|].
  eapply rep_bind; [apply refine_and_orient_rep|]. intros u. apply rep_pure. intros [[d l] a] _. eapply rep_bind; [apply rep_for; intros A v; apply IH|].
  intros v. apply IH.
Qed.
Lemma rai_learn_rep V : rep [] pc_log (rai_learn o ci ow lf V) (rai_learn o ci' ow lf V).
Proof.
  unfold rai_learn. eapply rep_bind; [apply (rai_rec_rep lf V ∅ 0 (pc_init o V))|]. intros s. do 2 (apply rep_pure; intros ? _). by apply rep_ok.
Qed.

(** ** B-RAI *)
Lemma brai_rec_rep V scored custom bdeu K fuel : ∀ en ex k s, rep (pc_log s) (λ r : ggt * pc_state, pc_log r.2)
  (brai_rec o ci ow lf V scored custom bdeu K fuel en ex k s) (brai_rec o ci' ow lf V scored custom bdeu K fuel en ex k s).
Proof.
  induction fuel as [|fuel IH]; intros en ex k s; cbn [brai_rec]; [by intros x|]. destruct (rai_exit _ _ _ _).
  { apply rep_pure. intros t _. by apply rep_ok. }
  eapply (rep_bind _ (λ x : list (list ggt * ggt) * pc_state, pc_log x.2)).
  { change (pc_log s) with ((λ x : list (list ggt * ggt) * pc_state, pc_log x.2) ([], s)). apply rep_for. intros _ [cs u]. cbn [snd].
    eapply rep_bind.
    { exact (refine_and_orient_rep en ex k (PCState (pd_copy (pc_graph s)) (pc_sep s) (pc_log u))). }
    intros v. apply rep_pure. intros [[d l] a] _. eapply (rep_bind _ (λ x : list ggt * pc_state, pc_log x.2)).
    { change (pc_log v) with ((λ x : list ggt * pc_state, pc_log x.2) ([], v)). apply rep_for. intros A [ts w]. cbn [snd].
      eapply rep_bind; [apply IH|]. intros r. by apply rep_ok. }
    intros [ts w]. cbn [snd]. eapply rep_bind; [apply IH|]. intros r. by apply rep_ok. }
  intros r. by apply rep_ok.
Qed.
Lemma brai_learn_rep V scored custom bdeu K pick : rep [] (λ r : ggt * pc_state * mgraph, pc_log r.1.2)
  (brai_learn o ci ow lf V scored custom bdeu K pick) (brai_learn o ci' ow lf V scored custom bdeu K pick).
Proof.
  unfold brai_learn. apply rep_pure. intros _ _. eapply rep_bind; [apply (brai_rec_rep V scored custom bdeu K lf V ∅ 0 (pc_init o V))|].
  intros [t s]. apply rep_pure. intros r _. by apply rep_ok.
Qed.
End rai.

(** ** FCI and ICD *)
Lemma ls_try_rep i j c s : rep (ls_log s) (λ r : lstate * bool, ls_log r.1) (ls_try ci i j c s) (ls_try ci' i j c s).
Proof.
  intros x. unfold ls_try. destruct (ci (ls_log s) i j c) eqn:E; intros [= <-]; cbn [ls_log fst].
  all: split; [by eexists [_]|]; intros H; apply honest_cons in H; by rewrite H.
Qed.
Lemma ls_orient_rep f s : rep (ls_log s) ls_log (ls_orient f s) (ls_orient f s).
Proof. unfold ls_orient. apply rep_pure. intros g _. by apply rep_ok. Qed.
Notation lg2 := (λ r : lstate * bool, ls_log r.1).
Notation lgi := (λ t : icd_state, ls_log (ic_ls t)).

Section pag.
Variables sb tc precalc : bool.
Variable fuel : nat.
Lemma fci_learn_rep V : rep [] lg2 (fci_learn o ci sb tc fuel V) (fci_learn o ci' sb tc fuel V).
Proof.
  unfold fci_learn. eapply (rep_bind _ ls_log).
  { unfold fci_pc. cbv zeta. eapply rep_bind; [unfold pc_skeleton; apply (pc_levels_rep true fuel _ 0 (pc_init o V))|].
    intros p. do 2 (apply rep_pure; intros ? _). by apply rep_ok. }
  intros s. eapply rep_bind; [apply ls_orient_rep|]. clear s. intros s. eapply (rep_bind _ lg2).
  { unfold fci_refine. apply rep_pure. intros pds _. change (ls_log s) with (lg2 (s, false)). apply (rep_for lg2). intros x u.
    destruct (pds !! x) as [X|]; [|apply rep_raise]. apply (rep_for lg2). clear u. intros y u. eapply (rep_bind _ lg2).
    { unfold fci_increasing. change (ls_log u.1) with (lg2 (u.1, false)). apply (rep_brk lg2). intros c v. eapply rep_bind; [apply ls_try_rep|]. intros r. by apply rep_ok. }
    intros r. by apply rep_ok. }
  clear s. intros r. eapply rep_bind; [apply ls_orient_rep|]. intros s. by apply rep_ok.
Qed.
Lemma icd_tests_rep i j cs s : rep (lg2 s) lg2 (icd_tests ci i j cs s) (icd_tests ci' i j cs s).
Proof. unfold icd_tests. apply (rep_brk lg2). intros c u. eapply rep_bind; [apply ls_try_rep|]. intros r. by apply rep_ok. Qed.
Lemma icd_step_0_rep s : rep (ls_log s) ls_log (icd_step_0 o ci fuel s) (icd_step_0 o ci' fuel s).
Proof.
  unfold icd_step_0. eapply rep_bind; [apply rep_for; intros [i j] u; eapply rep_bind; [apply ls_try_rep|]; intros r; by apply rep_ok|]. intros u. apply ls_orient_rep.
Qed.
Lemma icd_step_1_rep s : rep (ls_log s) lg2 (icd_step_1 o ci sb tc fuel s) (icd_step_1 o ci' sb tc fuel s).
Proof.
  unfold icd_step_1. eapply (rep_bind _ lg2).
  { change (ls_log s) with (lg2 (s, true)). apply (rep_for lg2). intros [i j] u. cbv zeta. apply rep_pure. intros b _. destruct (negb b); [by apply rep_ok|]. apply icd_tests_rep. }
  intros r. eapply rep_bind; [apply ls_orient_rep|]. intros u. by apply rep_ok.
Qed.
Lemma icd_step_rep r m s : rep (ls_log s) lg2 (icd_step o ci sb tc fuel precalc r m s) (icd_step o ci' sb tc fuel precalc r m s).
Proof.
  unfold icd_step. eapply (rep_bind _ lg2).
  { change (ls_log s) with (lg2 (s, true)). apply (rep_for lg2). intros [i j] u. cbv zeta. apply rep_pure. intros b _. destruct (negb b); [by apply rep_ok|].
    apply rep_pure. intros cs _. apply icd_tests_rep. }
  intros u. eapply rep_bind; [apply ls_orient_rep|]. intros t. by apply rep_ok.
Qed.
Lemma icd_iteration_rep s : rep (lgi s) (λ r : icd_state * (bool * nat), lgi r.1) (icd_iteration o ci sb tc fuel precalc s) (icd_iteration o ci' sb tc fuel precalc s).
Proof.
  unfold icd_iteration. destruct (ic_done s); [apply rep_raise|]. cbv zeta. eapply (rep_bind _ lgi); [|intros t; by apply rep_ok].
  destruct (ic_size s) as [|[|r]].
  - eapply rep_bind; [apply icd_step_0_rep|]. intros t. by apply rep_ok.
  - eapply rep_bind; [apply icd_step_1_rep|]. intros t. by apply rep_ok.
  - apply rep_pure. intros m _. eapply rep_bind; [apply icd_step_rep|]. intros t. by apply rep_ok.
Qed.
Lemma icd_learn_rep s : rep (lgi s) lgi (icd_learn o ci sb tc fuel precalc s) (icd_learn o ci' sb tc fuel precalc s).
Proof.
  assert (∀ n s, rep (lgi s) lgi (icd_loop o ci sb tc fuel precalc n s) (icd_loop o ci' sb tc fuel precalc n s)) as H; [|exact (H fuel (IcdState (ic_ls s) (ic_cond s) false 0))].
  clear s. intros n. induction n as [|n IH]; intros s; cbn [icd_loop]; [by intros x|]. eapply rep_bind; [apply icd_iteration_rep|].
  intros [t [[] k]]; cbn [fst snd]; [by apply rep_ok|apply IH].
Qed.

(** ** temporal ICD *)
Section ts.
Variable NS : list (list node).
Variable hom : bool.
Variable fx : gmap (nat * nat) (option mark).
Lemma cuts_rep {A} (h : list A) (f : A → node * node * list node) s :
  rep (ls_log s) ls_log (for_ h (λ a s, Ok (ls_cut (f a).1.1 (f a).1.2 (f a).2 s)) s) (for_ h (λ a s, Ok (ls_cut (f a).1.1 (f a).1.2 (f a).2 s)) s).
Proof. apply rep_for. intros a u. by apply rep_ok. Qed.
Lemma ts_try_rep i j c s : rep (ls_log s) lg2 (ts_try NS ci hom i j c s) (ts_try NS ci' hom i j c s).
Proof.
  unfold ts_try. eapply rep_bind; [apply ls_try_rep|]. intros [u b]. cbn [fst snd]. destruct (negb b); [by apply rep_ok|]. destruct (negb hom); [by apply rep_ok|].
  eapply (rep_bind _ ls_log); [|intros v; by apply rep_ok]. case_decide.
  - apply rep_pure. intros h _. apply rep_for. intros [a b'] v. by apply rep_ok.
  - apply rep_pure. intros h _. apply rep_for. intros [[a b'] c'] v. by apply rep_ok.
Qed.
Lemma ts_tests_rep i j cs s : rep (lg2 s) lg2 (ts_tests NS ci hom i j cs s) (ts_tests NS ci' hom i j cs s).
Proof. unfold ts_tests. apply (rep_brk lg2). intros c u. eapply rep_bind; [apply ts_try_rep|]. intros r. by apply rep_ok. Qed.
Lemma ts_step_0_rep s : rep (ls_log s) ls_log (ts_step_0 NS o ci hom sb tc fuel fx s) (ts_step_0 NS o ci' hom sb tc fuel fx s).
Proof.
  unfold ts_step_0. eapply rep_bind; [apply rep_for; intros [i j] u; eapply rep_bind; [apply ts_try_rep|]; intros r; by apply rep_ok|]. intros u.
  eapply rep_bind; [apply rep_for; intros [i j] v; eapply rep_bind; [apply ts_try_rep|]; intros r; by apply rep_ok|]. intros v. apply ls_orient_rep.
Qed.
Lemma ts_edges_1_rep l1 l2 es s : rep (lg2 s) lg2 (ts_edges_1 NS o ci hom l1 l2 es s) (ts_edges_1 NS o ci' hom l1 l2 es s).
Proof.
  unfold ts_edges_1. apply (rep_for lg2). intros [i j] u. cbv zeta. apply rep_pure. intros b _. destruct (negb b); [by apply rep_ok|]. apply ts_tests_rep.
Qed.
Lemma ts_edges_rep es r m s : rep (lg2 s) lg2 (ts_edges NS o ci hom precalc fuel es r m s) (ts_edges NS o ci' hom precalc fuel es r m s).
Proof.
  unfold ts_edges. apply (rep_for lg2). intros [i j] u. cbv zeta. apply rep_pure. intros b _. destruct (negb b); [by apply rep_ok|].
  apply rep_pure. intros cs _. apply ts_tests_rep.
Qed.
Lemma ts_iteration_rep s : rep (lgi s) (λ r : icd_state * (bool * nat), lgi r.1)
  (ts_iteration NS o ci hom sb tc precalc fuel fx s) (ts_iteration NS o ci' hom sb tc precalc fuel fx s).
Proof.
  unfold ts_iteration. destruct (ic_done s); [apply rep_raise|]. cbv zeta. eapply (rep_bind _ lgi); [|intros t; by apply rep_ok].
  destruct (ic_size s) as [|[|r]].
  - eapply rep_bind; [apply ts_step_0_rep|]. intros t. by apply rep_ok.
  - eapply (rep_bind _ lg2); [|intros t; by apply rep_ok]. unfold ts_step_1. eapply rep_bind; [apply (ts_edges_1_rep _ _ _ (ic_ls s, true))|].
    intros u. eapply rep_bind; [apply ts_edges_1_rep|]. clear u. intros u. eapply rep_bind; [apply ls_orient_rep|]. intros t. by apply rep_ok.
  - apply rep_pure. intros m _. eapply (rep_bind _ lg2); [|intros t; by apply rep_ok]. unfold ts_step. eapply rep_bind; [apply (ts_edges_rep _ _ _ (ic_ls s, true))|].
    intros u. eapply rep_bind; [apply ts_edges_rep|]. clear u. intros u. eapply rep_bind; [apply ls_orient_rep|]. intros t. by apply rep_ok.
Qed.
Lemma ts_learn_rep s : rep (lgi s) lgi (ts_learn NS o ci hom sb tc precalc fuel fx s) (ts_learn NS o ci' hom sb tc precalc fuel fx s).
Proof.
  assert (∀ n s, rep (lgi s) lgi (ts_loop NS o ci hom sb tc precalc fuel fx n s) (ts_loop NS o ci' hom sb tc precalc fuel fx n s)) as H; [|exact (H fuel (IcdState (ic_ls s) (ic_cond s) false 0))].
  clear s. intros n. induction n as [|n IH]; intros s; cbn [ts_loop]; [by intros x|]. eapply rep_bind; [apply ts_iteration_rep|].
  intros [t [[] k]]; cbn [fst snd]; [by apply rep_ok|apply IH].
Qed.
End ts.

(** ** OrderedICD *)
Section oicd.
Variable ord : list node.
Variable mcs : option nat.
Notation lgo := (λ s : ostate, ls_log (os_ls s)).
Notation lgo2 := (λ r : ostate * bool, ls_log (os_ls r.1)).
Lemma o_try_rep a b c s : rep (lgo s) lgo2 (o_try ci a b c s) (o_try ci' a b c s).
Proof. unfold o_try. eapply rep_bind; [apply ls_try_rep|]. intros r. by apply rep_ok. Qed.
Lemma o_try0_rep a b s : rep (lgo s) lgo (Ok (o_try0 ci a b s)) (Ok (o_try0 ci' a b s)).
Proof.
  intros x [= <-]. unfold o_try0. cbv zeta. destruct (ci (ls_log (os_ls s)) a b []) eqn:E; cbn [os_ls ls_log].
  all: split; [by eexists [_]|]; intros H; apply honest_cons in H; by rewrite H.
Qed.
Lemma o_orient_rep any s : rep (lgo s) lgo (o_orient_graph o sb tc fuel ord any s) (o_orient_graph o sb tc fuel ord any s).
Proof. unfold o_orient_graph. eapply rep_bind; [apply ls_orient_rep|]. intros t. by apply rep_ok. Qed.
Lemma o_r0_rep b s : rep (lgo s) lgo (o_r0 ci ord b s) (o_r0 ci' ord b s).
Proof.
  unfold o_r0. apply rep_pure. intros base _. apply (rep_for lgo). intros a u. apply rep_pure. intros [] _; [by apply rep_ok|apply o_try0_rep].
Qed.
Lemma o_r1_rep l1 l2 b s : rep (lgo s) lgo (o_r1 o ci ord l1 l2 b s) (o_r1 o ci' ord l1 l2 b s).
Proof.
  unfold o_r1. apply rep_pure. intros base _. cbv zeta. apply (rep_for lgo). intros a u. apply rep_pure. intros c _. destruct (negb c); [by apply rep_ok|].
  apply rep_pure. intros [] _; [by apply rep_ok|]. apply (rep_brk lgo). intros z v. apply o_try_rep.
Qed.
Lemma o_level_rep l r b s : rep (lgo s) lgo2 (o_level o ci fuel ord l r b s) (o_level o ci' fuel ord l r b s).
Proof.
  unfold o_level. apply rep_pure. intros base _. apply rep_pure. intros t _. cbv zeta. change (lgo s) with (lgo2 (s, true)). apply (rep_for lgo2). intros ai u.
  apply rep_pure. intros a _. apply rep_pure. intros [] _; [by apply rep_ok|]. apply rep_pure. intros c _. destruct (negb c); [by apply rep_ok|].
  match goal with |- rep _ _ (for_brk ?cs ?f ?s0) (for_brk _ ?f' _) => enough (∀ x s, rep (lgo2 s) (λ r : ostate * bool * bool, lgo2 r.1) (f x s) (f' x s)) as H by exact (rep_brk lgo2 cs f f' H s0) end.
  intros [S dd] v. cbn [fst].
  case_decide; [by apply rep_ok|]. apply rep_pure. intros p _. destruct (negb p); [by apply rep_ok|]. eapply rep_bind; [apply o_try_rep|].
  intros [w []]; cbn [fst snd]; by apply rep_ok.
Qed.
Lemma o_learn_node_rep b s : rep (lgo s) lgo (o_learn_node o ci sb tc fuel ord mcs b s) (o_learn_node o ci' sb tc fuel ord mcs b s).
Proof.
  unfold o_learn_node. apply rep_pure. intros base _. cbv zeta. eapply (rep_bind _ lgo); [apply o_r0_rep|]. intros u. eapply (rep_bind _ lgo); [apply o_orient_rep|]. clear u. intros u.
  case_decide; [by apply rep_ok|]. eapply (rep_bind _ lgo); [apply o_r1_rep|]. clear u. intros u. eapply (rep_bind _ lgo); [apply o_orient_rep|]. clear u. intros u.
  case_decide; [by apply rep_ok|]. apply (rep_brk lgo). clear u. intros r u. destruct (all_done _ _ _ _); [by apply rep_ok|].
  eapply rep_bind; [apply o_level_rep|]. intros t. eapply (rep_bind _ lgo); [apply o_orient_rep|]. intros v. by apply rep_ok.
Qed.
Lemma o_learn_rep loc s : rep (lgo s) lgo (o_learn o ci sb tc fuel ord mcs loc s) (o_learn o ci' sb tc fuel ord mcs loc s).
Proof.
  unfold o_learn. destruct loc.
  - unfold o_learn_local. eapply (rep_bind _ lgo); [apply (rep_for lgo); intros b u; apply o_learn_node_rep|]. intros u. apply o_orient_rep.
  - unfold o_learn_global. cbv zeta. eapply (rep_bind _ lgo); [apply (rep_for lgo); intros b u; apply o_r0_rep|]. intros u. eapply (rep_bind _ lgo); [apply o_orient_rep|].
    clear u. intros u. eapply (rep_bind _ lgo); [apply (rep_for lgo); intros b v; apply o_r1_rep|]. clear u. intros u. eapply (rep_bind _ lgo); [apply o_orient_rep|].
    clear u. intros u. eapply (rep_bind _ lgo2); [|intros v; apply o_orient_rep]. change (lgo u) with (lgo2 (u, true)). apply (rep_brk lgo2). clear u. intros r u.
    eapply (rep_bind _ lgo2).
    { apply (rep_for lgo2). intros b v. eapply (rep_bind _ lgo2).
      { unfold o_r_node. apply rep_pure. intros base _. destruct (all_done _ _ _ _); [by apply rep_ok|]. apply o_level_rep. }
      intros t. by apply rep_ok. }
    clear u. intros [u []]; cbn [fst snd]; [by apply rep_ok|]. eapply (rep_bind _ lgo); [apply o_orient_rep|]. intros t. by apply rep_ok.
Qed.
End oicd.
End pag.
End ordered.
End replay.

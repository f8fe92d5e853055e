(** Contingency counts and temporal unrolling. *)
From Coq Require Import QArith.
From Verif Require Import Base BaseLemmas ModelData SpecData.
Local Open Scope nat_scope.

(** ** Mixed radix *)
Fixpoint cums (m : nat) (vs : list nat) : list nat :=
  match vs with [] => [] | s :: vs => m :: cums (m * s) vs end.
Lemma cums_length m vs : length (cums m vs) = length vs.
Proof. revert m. induction vs as [|s vs IH]; intros m; simpl; [done|]. by rewrite IH. Qed.
Lemma cums_snoc m vs s : cums m (vs ++ [s]) = cums m vs ++ [m * n_configs vs].
Proof.
  revert m. induction vs as [|x vs IH]; intros m; [simpl; by rewrite Nat.mul_1_r|]. simpl. rewrite IH. simpl. do 3 f_equal. unfold n_configs. lia.
Qed.
Lemma n_configs_app vs ws : n_configs (vs ++ ws) = n_configs vs * n_configs ws.
Proof. induction vs as [|x vs IH]; simpl; [lia|]. unfold n_configs in *. simpl. rewrite IH. lia. Qed.
Lemma n_configs_snoc vs s : n_configs (vs ++ [s]) = n_configs vs * s.
Proof. rewrite n_configs_app. unfold n_configs. simpl. lia. Qed.
Lemma last_snoc {A} (l : list A) x d : List.last (l ++ [x]) d = x.
Proof. apply List.last_last. Qed.
Lemma sz_cum_prod_eq vs : vs ≠ [] → sz_cum_prod vs = cums 1 vs.
Proof.
  intros Hne. unfold sz_cum_prod.
  assert (∀ k, k + 1 ≤ length vs → foldl (λ acc i, acc ++ [List.last acc 0 * vs !!! i]) [1] (seq 0 k) = cums 1 (take (k + 1) vs)) as H.
  { induction k as [|k IH]; intros Hk.
    - destruct vs as [|s vs]; [simpl in Hk; lia|]. done.
    - rewrite seq_S, foldl_app. cbn [foldl]. rewrite IH by lia.
      destruct (lookup_lt_is_Some_2 vs (S k)) as [x Hx]; [lia|]. destruct (lookup_lt_is_Some_2 vs k) as [y Hy]; [lia|].
      replace (S k + 1) with (S (k + 1)) by lia. rewrite (take_S_r vs (k + 1) x) by (by replace (k + 1) with (S k) by lia).
      rewrite cums_snoc. f_equal. f_equal. replace (k + 1) with (S k) by lia. rewrite (take_S_r vs k y) by done. rewrite cums_snoc, last_snoc, n_configs_snoc.
      rewrite (list_lookup_total_correct vs (0 + k) y) by done. lia. }
  rewrite H by (destruct vs; [done|simpl; lia]). f_equal. rewrite take_ge; [done|]. destruct vs; [done|]. simpl. lia.
Qed.
Lemma dot_cums m vs c : length c = length vs → dot c (cums m vs) = m * f_index vs c.
Proof.
  revert m c. induction vs as [|s vs IH]; intros m [|x c] Hl; try done. injection Hl as Hl. unfold dot in *. simpl. rewrite IH by done. lia.
Qed.
Lemma config_length vs c : config vs c → length c = length vs.
Proof. intros H. by apply Forall2_length in H. Qed.
Lemma f_index_lt vs c : config vs c → f_index vs c < n_configs vs.
Proof.
  intros H. induction H as [|x s c vs Hx H IH]; [unfold n_configs; simpl; lia|]. unfold n_configs in *. simpl. nia.
Qed.
Lemma f_index_inj vs c d : config vs c → config vs d → f_index vs c = f_index vs d → c = d.
Proof.
  intros H. revert d. induction H as [|x s c vs Hx H IH]; intros d Hd; inversion Hd as [|y ? d' ? Hy Hd']; subst; [done|]. simpl. intros E.
  assert (x = y ∧ f_index vs c = f_index vs d') as [-> E2]; [|f_equal; by apply IH].
  assert (x = y) as Exy.
  { rewrite <-(Nat.mod_small x s), <-(Nat.mod_small y s) by done. rewrite <-(Nat.mod_add x (f_index vs c) s), <-(Nat.mod_add y (f_index vs d') s) by lia.
    rewrite (Nat.mul_comm (f_index vs c)), (Nat.mul_comm (f_index vs d')). by rewrite E. }
  split; [done|]. subst y. apply (Nat.mul_cancel_l _ _ s); lia.
Qed.
Lemma f_index_surj vs k : k < n_configs vs → ∃ c, config vs c ∧ f_index vs c = k.
Proof.
  revert k. induction vs as [|s vs IH]; intros k Hk.
  - exists []. split; [constructor|]. unfold n_configs in Hk. simpl in *. lia.
  - unfold n_configs in Hk. simpl in Hk. assert (s ≠ 0) as Hs by (intros ->; lia). destruct (IH (k / s)) as (c & Hc & E).
    { apply Nat.div_lt_upper_bound; [done|]. done. }
    exists (k mod s :: c). split; [constructor; [by apply Nat.mod_upper_bound|done]|]. simpl. rewrite E. pose proof (Nat.div_mod k s Hs). lia.
Qed.
Lemma last_some (vs : list nat) : vs ≠ [] → ∃ ws s, vs = ws ++ [s] ∧ List.last (Some <$> vs) None = Some s.
Proof.
  intros Hne. destruct (exists_last Hne) as (ws & s & ->). exists ws, s. split; [done|]. rewrite fmap_app. apply last_snoc.
Qed.
Lemma calc_index_ok data vs : vs ≠ [] → Forall (λ r, length r = length vs) data → calc_index data vs = Ok (f_index vs <$> data, n_configs vs).
Proof.
  intros Hne Hd. unfold calc_index. destruct (last_some vs Hne) as (ws & s & E & ->). rewrite sz_cum_prod_eq by done. 
  rewrite decide_True by (by rewrite cums_length). f_equal. f_equal.
  - apply list_fmap_ext. intros i r Hr. rewrite Forall_lookup in Hd. rewrite dot_cums by (by eapply Hd). lia.
  - rewrite E, cums_snoc, last_snoc, n_configs_snoc. lia.
Qed.

(** ** Histograms *)
Lemma bin_lookup {A} (plus : A → A → A) (zs : list (nat * A)) : ∀ (h : list A) (k : nat),
  foldl (λ h p, alter (λ x, plus x p.2) p.1 h) h zs !! k = (λ x, foldl plus x (snd <$> filter (λ p, p.1 = k) zs)) <$> h !! k.
Proof.
  induction zs as [|[i w] zs IH]; intros h k; [simpl; by destruct (h !! k)|]. cbn [foldl]. rewrite IH. cbn [fst snd]. rewrite filter_cons. cbn [fst]. destruct (decide (i = k)) as [->|Hne].
  - rewrite list_lookup_alter. by destruct (h !! k).
  - rewrite list_lookup_alter_ne by done. done.
Qed.
Lemma bin_length {A} (plus : A → A → A) (zs : list (nat * A)) : ∀ (h : list A), length (foldl (λ h p, alter (λ x, plus x p.2) p.1 h) h zs) = length h.
Proof. induction zs as [|[i w] zs IH]; intros h; [done|]. cbn [foldl]. by rewrite IH, alter_length. Qed.
Lemma max_bound (idx : list nat) n : Forall (λ i, i < n) idx → foldr (λ i m, max (S i) m) 0 idx ≤ n.
Proof. induction 1 as [|i idx Hi _ IH]; simpl; lia. Qed.
Lemma filter_index vs c data : config vs c → Forall (config vs) data →
  filter (λ i, i = f_index vs c) (f_index vs <$> data) = f_index vs <$> filter (λ r, r = c) data.
Proof.
  intros Hc Hd. induction Hd as [|r data Hr _ IH]; [done|]. rewrite fmap_cons, !filter_cons. destruct (decide (r = c)) as [->|Hne].
  - rewrite decide_True by done. by rewrite fmap_cons, IH.
  - rewrite decide_False; [done|]. intros E. by apply Hne, (f_index_inj vs).
Qed.
Lemma filter_zip_index {A} vs c data (ws : list A) : config vs c → Forall (config vs) data →
  snd <$> filter (λ p, p.1 = f_index vs c) (zip (f_index vs <$> data) ws) = snd <$> filter (λ p, p.1 = c) (zip data ws).
Proof.
  intros Hc Hd. revert ws. induction Hd as [|r data Hr _ IH]; intros ws; [done|]. destruct ws as [|w ws]; [done|]. cbn [fmap list_fmap zip_with zip]. rewrite !filter_cons. cbn [fst].
  destruct (decide (r = c)) as [->|Hne].
  - rewrite decide_True by done. rewrite !fmap_cons. f_equal. apply IH.
  - rewrite decide_False; [apply IH|]. intros E. by apply Hne, (f_index_inj vs).
Qed.
Lemma stats_ok data vs : vs ≠ [] → Forall (config vs) data → returns (calc_stats data vs) (λ h,
  length h = n_configs vs ∧ (∀ c, config vs c → h !! f_index vs c = Some (n_records data c)) ∧ sum_list h = length data).
Proof.
  intros Hne Hd. unfold calc_stats. rewrite calc_index_ok; [|done|eapply Forall_impl; [exact Hd|]; intros r; apply config_length]. cbn [mbind res_bind fst snd].
  assert (Forall (λ i, i < n_configs vs) (f_index vs <$> data)) as Hb.
  { apply Forall_fmap. eapply Forall_impl; [exact Hd|]. intros r. apply f_index_lt. }
  unfold bincount. rewrite decide_True by (by rewrite replicate_length). cbn [returns].
  assert (max (n_configs vs) (foldr (λ i m, max (S i) m) 0 (f_index vs <$> data)) = n_configs vs) as -> by (apply max_bound in Hb; lia).
  split; [by rewrite bin_length, replicate_length|]. split.
  - intros c Hc. rewrite bin_lookup, lookup_replicate_2 by (by apply f_index_lt). cbn [fmap option_fmap option_map]. f_equal.
    rewrite filter_zip_index by done. unfold n_records. rewrite fmap_length. clear.
    assert (∀ a, foldl Nat.add a (snd <$> filter (λ p, p.1 = c) (zip data (replicate (length data) 1))) = a + length (filter (λ r, r = c) data)) as H; [|by rewrite H].
    induction data as [|r data IH]; intros a; [simpl; lia|]. cbn [length replicate zip_with zip]. rewrite !filter_cons. cbn [fst]. destruct (decide (r = c)); [|apply IH].
    rewrite fmap_cons. cbn [foldl snd length]. rewrite IH. lia.
  - rewrite fmap_length. revert Hb. assert (sum_list (replicate (n_configs vs) 0) = 0) as E0 by (generalize (n_configs vs); clear; induction n; simpl; auto). 
    assert (∀ (idx : list nat) (h : list nat), Forall (λ i, i < length h) idx → sum_list (foldl (λ h p, alter (λ x, x + p.2) p.1 h) h (zip idx (replicate (length idx) 1))) = sum_list h + length idx) as H.
    { induction idx as [|i idx IH]; intros h Hi; [simpl; lia|]. apply Forall_cons in Hi as [Hi Hi']. cbn [length replicate zip_with zip foldl fst snd]. rewrite IH by (by rewrite alter_length).
      assert (sum_list (alter (λ x, x + 1) i h) = sum_list h + 1) as ->; [|lia]. clear -Hi. revert i Hi. induction h as [|x h IH]; intros [|i] Hi; cbn [length] in Hi; [lia|lia|simpl; lia|].
      change (x + sum_list (alter (λ x, x + 1) i h) = x + sum_list h + 1). rewrite IH; lia. }
    intros Hb. specialize (H (f_index vs <$> data) (replicate (n_configs vs) 0)). rewrite replicate_length, fmap_length in H. rewrite H, E0 by done. lia.
Qed.

Lemma stats_w_ok data vs ws : vs ≠ [] → Forall (config vs) data → length ws = length data → returns (calc_stats_w data vs ws) (λ h,
  length h = n_configs vs ∧ ∀ c, config vs c → ∃ q, h !! f_index vs c = Some q ∧ (q == w_records data ws c)%Q).
Proof.
  intros Hne Hd Hw. unfold calc_stats_w. rewrite calc_index_ok; [|done|eapply Forall_impl; [exact Hd|]; intros r; apply config_length]. cbn [mbind res_bind fst snd].
  assert (Forall (λ i, i < n_configs vs) (f_index vs <$> data)) as Hb.
  { apply Forall_fmap. eapply Forall_impl; [exact Hd|]. intros r. apply f_index_lt. }
  unfold bincount. rewrite decide_True by (by rewrite fmap_length). cbn [returns].
  assert (max (n_configs vs) (foldr (λ i m, max (S i) m) 0 (f_index vs <$> data)) = n_configs vs) as -> by (apply max_bound in Hb; lia).
  split; [by rewrite bin_length, replicate_length|]. intros c Hc. rewrite bin_lookup, lookup_replicate_2 by (by apply f_index_lt). cbn [fmap option_fmap option_map]. eexists. split; [done|].
  rewrite filter_zip_index by done. unfold w_records. generalize (snd <$> filter (λ p : list nat * Q, p.1 = c) (zip data ws)). clear. intros l.
  assert (∀ a, foldl Qplus a l == a + foldr Qplus 0%Q l)%Q as H; [|rewrite H; ring].
  induction l as [|x l IH]; intros a; simpl; [ring|]. rewrite IH. ring.
Qed.
Lemma max_list_le (l : list nat) x : x ∈ l → x ≤ max_list l.
Proof. induction 1; simpl; lia. Qed.
Lemma max_list_in (l : list nat) : l ≠ [] → max_list l ∈ l.
Proof.
  induction l as [|x l IH]; [done|]. intros _. simpl. destruct l as [|y l]; [simpl; rewrite Nat.max_0_r; left|]. destruct (Nat.max_spec x (max_list (y :: l))) as [[_ ->]|[_ ->]]; [right; by apply IH|left].
Qed.
Lemma var_size_ok data n : data ≠ [] → Forall (λ r, length r = n) data → returns (get_var_size data n) (λ vs, length vs = n ∧ Forall (config vs) data ∧
  ∀ v s, vs !! v = Some s → 0 < s ∧ ∃ r, r ∈ data ∧ r !! v = Some (s - 1)).
Proof.
  intros Hne Hd. unfold get_var_size. eapply returns_mono; [apply (for_returns_pre _ _ _ (λ pre acc, acc = (λ v, max_list (column data v) + 1) <$> pre)); [done|]|].
  - intros pre v post acc E ->. destruct data as [|r data]; [done|]. cbn [returns]. by rewrite fmap_app.
  - intros vs ->. rewrite Forall_forall in Hd. split; [by rewrite fmap_length, seq_length|]. split.
    + apply Forall_forall. intros r Hr. apply Forall2_lookup. intros i. rewrite list_lookup_fmap. destruct (decide (i < n)) as [Hi|Hi].
      * rewrite lookup_seq_lt by done. destruct (lookup_lt_is_Some_2 r i) as [x Hx]; [by rewrite Hd|]. rewrite Hx. simpl. constructor.
        assert (x ≤ max_list (column data i)); [|lia]. apply max_list_le. unfold column. apply elem_of_list_fmap. exists r. split; [|done]. symmetry. by apply list_lookup_total_correct.
      * rewrite lookup_seq_ge by lia. rewrite lookup_ge_None_2; [constructor|]. rewrite Hd by done. lia.
    + intros v s Hs. rewrite list_lookup_fmap in Hs. destruct (decide (v < n)) as [Hi|Hi]; [|by rewrite lookup_seq_ge in Hs by lia]. rewrite lookup_seq_lt in Hs by done. injection Hs as <-. split; [lia|].
      assert (max_list (column data v) ∈ column data v) as Hin by (apply max_list_in; unfold column; by destruct data). unfold column in Hin at 2. apply elem_of_list_fmap in Hin as (r & E & Hr).
      exists r. split; [done|]. replace (max_list (column data v) + 1 - 1) with (max_list (column data v)) by lia. rewrite E. simpl. apply list_lookup_lookup_total_lt. by rewrite Hd.
Qed.

(** ** Temporal unrolling *)
Section unroll.
Context {A : Type} (zero : A).
Implicit Types (data : list (list A)).
Lemma arange_spec stop step x : 0 < step → x ∈ arange stop step ↔ ∃ k, x = k * step ∧ k * step < stop.
Proof.
  intros Hs. unfold arange. rewrite elem_of_list_fmap. split.
  - intros (k & -> & Hk). exists k. split; [done|]. apply elem_of_seq in Hk as [_ Hk]. cbn in Hk.
    assert (S k ≤ (stop + step - 1) / step) as H by lia. pose proof (Nat.mul_div_le (stop + step - 1) step ltac:(lia)) as H2. nia.
  - intros (k & -> & Hk). exists k. split; [done|]. apply elem_of_seq. split; [lia|]. cbn. assert (S k ≤ (stop + step - 1) / step); [|lia]. apply Nat.div_le_lower_bound; [lia|]. nia.
Qed.
Lemma arange_lookup stop step r : 0 < step → arange stop step !! r = if decide (r * step < stop) then Some (r * step) else None.
Proof.
  intros Hs. unfold arange. rewrite list_lookup_fmap. destruct (decide (r < (stop + step - 1) / step)) as [Hr|Hr].
  - rewrite lookup_seq_lt by done. cbn. rewrite decide_True; [done|]. pose proof (Nat.mul_div_le (stop + step - 1) step ltac:(lia)). nia.
  - rewrite lookup_seq_ge by lia. cbn. rewrite decide_False; [done|]. intros Hlt. apply Hr. assert (S r ≤ (stop + step - 1) / step); [|lia]. apply Nat.div_le_lower_bound; [lia|]. nia.
Qed.
Lemma concat_lookup data nc : Forall (λ r, length r = nc) data → ∀ i v, v < nc → concat data !! (i * nc + v) = cell data i v.
Proof.
  induction 1 as [|r data Hr Hd IH]; intros i v Hv; [done|]. unfold cell. destruct i as [|i]; simpl.
  - rewrite lookup_app_l by lia. done.
  - rewrite lookup_app_r by lia. rewrite Hr. replace (nc + i * nc + v - nc) with (i * nc + v) by lia. by apply IH.
Qed.
Lemma concat_length data nc : Forall (λ r, length r = nc) data → length (concat data) = length data * nc.
Proof. induction 1 as [|r data Hr Hd IH]; [done|]. simpl. rewrite app_length. lia. Qed.
Lemma unroll_rows_ok data nc w step : 0 < step → Forall (λ r, length r = nc) data → returns (unroll_rows data nc w step) (λ u,
  Forall (λ r, length r = w * nc) u ∧ (∀ r, r < length u ↔ r * step + w ≤ length data) ∧
  ∀ r t v, r < length u → t < w → v < nc → cell u r (t * nc + v) = cell data (r * step + t) v).
Proof.
  intros Hs Hd. unfold unroll_rows. rewrite decide_False by lia. set (stop := length data + 1 - w).
  eapply returns_mono; [apply (for_returns_pre _ _ _ (λ pre acc, acc = (λ st, take (w * nc) (drop st (concat data))) <$> pre ∧ Forall (λ r, length r = w * nc) acc)); [done|]|].
  - intros pre st post acc E [-> Hacc]. assert (st ∈ (λ x, x * nc) <$> arange stop step) as Hst by (rewrite E; set_solver +).
    apply elem_of_list_fmap in Hst as (x & -> & Hx). apply arange_spec in Hx as (k & -> & Hk); [|done].
    assert (length (take (w * nc) (drop (k * step * nc) (concat data))) = w * nc) as Hl.
    { rewrite take_length, drop_length, (concat_length _ _ Hd). assert (k * step + w ≤ length data) by lia. nia. }
    rewrite decide_True by done. cbn [returns]. rewrite fmap_app. split; [done|]. apply Forall_app. split; [done|]. by constructor.
  - intros u [-> Hu]. split; [done|]. 
    assert (∀ r, (((λ st, take (w * nc) (drop st (concat data))) <$> ((λ x, x * nc) <$> arange stop step)) !! r) = if decide (r * step < stop) then Some (take (w * nc) (drop (r * step * nc) (concat data))) else None) as Hl.
    { intros r. rewrite !list_lookup_fmap, arange_lookup by done. by case_decide. }
    assert (∀ r, r < length ((λ st, take (w * nc) (drop st (concat data))) <$> ((λ x, x * nc) <$> arange stop step)) ↔ r * step + w ≤ length data) as Hlen.
    { intros r. rewrite <-lookup_lt_is_Some, Hl. case_decide as H; (split; [intros [? ?]|intros ?]); [lia|by eexists|done|lia]. }
    split; [done|]. intros r t v Hr Ht Hv. apply Hlen in Hr. unfold cell at 1. rewrite Hl, decide_True by lia. cbn [mbind option_bind].
    rewrite lookup_take by nia. rewrite lookup_drop, <-(concat_lookup _ _ Hd) by done. f_equal. lia.
Qed.
Lemma nodes_full_lookup nc w t v : t < w → v < nc → cell (nodes_full nc w) t v = Some (t * nc + v).
Proof. intros Ht Hv. unfold cell, nodes_full. rewrite list_lookup_fmap, lookup_seq_lt by done. cbn. by rewrite list_lookup_fmap, lookup_seq_lt. Qed.
Lemma nodes_observed_ok nc w obs : Forall (λ v, v < nc) obs → nodes_observed nc w obs = Ok ((λ t, (λ v, t * nc + v) <$> obs) <$> seq 0 w).
Proof.
  intros Ho. unfold nodes_observed, nodes_full. 
  assert (∀ l acc, for_ ((λ t, (λ v, t * nc + v) <$> seq 0 nc) <$> l) (λ row acc, if decide (Forall (λ v, v < length row) obs) then Ok (acc ++ [(λ v, row !!! v) <$> obs]) else Raise IndexError) acc =
    Ok (acc ++ ((λ t, (λ v, t * nc + v) <$> obs) <$> l))) as H; [|by rewrite H].
  induction l as [|t l IH]; intros acc; [by rewrite app_nil_r|]. rewrite fmap_cons. cbn [for_]. rewrite decide_True by (by rewrite fmap_length, seq_length). cbn [mbind res_bind]. rewrite IH.
  rewrite <-app_assoc. do 2 f_equal. rewrite fmap_cons. cbn. f_equal. apply list_fmap_ext. intros i v Hv. rewrite Forall_lookup in Ho. specialize (Ho _ _ Hv).
  apply list_lookup_total_correct. rewrite list_lookup_fmap, lookup_seq_lt by done. done.
Qed.
Lemma assign_all (old : list A) (f : nat → nat) (ps : list (nat * nat)) : ∀ new : list A, length new = length old →
  (∀ p, p ∈ ps → p.1 < length old ∧ p.2 < length old ∧ p.2 = f p.1) → ∀ c,
  foldl (λ new p, match old !! p.2 with Some x => <[p.1 := x]> new | None => new end) new ps !! c =
  if decide (c ∈ fst <$> ps) then old !! f c else new !! c.
Proof.
  induction ps as [|[i j] ps IH]; intros new Hl Hp c; [by rewrite decide_False by set_solver +|]. cbn [foldl fst snd].
  destruct (Hp (i, j)) as (Hi & Hj & E); [left|]. cbn [fst snd] in *. destruct (lookup_lt_is_Some_2 old j Hj) as [x Hx]. rewrite Hx. rewrite IH; [|by rewrite insert_length|intros p H; apply Hp; by right].
  destruct (decide (c ∈ fst <$> ps)) as [Hc|Hc]; [rewrite decide_True; [done|rewrite fmap_cons; by right]|]. destruct (decide (i = c)) as [->|Hne].
  - rewrite list_lookup_insert by lia. rewrite decide_True by (rewrite fmap_cons; left). by rewrite <-E.
  - rewrite list_lookup_insert_ne by done. rewrite decide_False; [done|]. rewrite fmap_cons, elem_of_cons. cbn. intros [?|?]; [by subst|done].
Qed.
Lemma assign_length (old : list A) (ps : list (nat * nat)) : ∀ new : list A, 
  length (foldl (λ new p, match old !! p.2 with Some x => <[p.1 := x]> new | None => new end) new ps) = length new.
Proof. induction ps as [|[i j] ps IH]; intros new; [done|]. cbn [foldl fst snd]. rewrite IH. destruct (old !! j); [apply insert_length|done]. Qed.
Lemma reverse_flat (old : list A) (qs : list (list nat * list nat)) : ∀ new : list A,
  foldl (λ new p, assign_cols old new p.1 p.2) new qs =
  foldl (λ new p, match old !! p.2 with Some x => <[p.1 := x]> new | None => new end) new (concat ((λ q, zip q.1 q.2) <$> qs)).
Proof. induction qs as [|[a b] qs IH]; intros new; [done|]. rewrite fmap_cons. cbn [foldl concat]. rewrite foldl_app, IH. done. Qed.
Lemma elem_concat {B} (x : B) (ls : list (list B)) : x ∈ concat ls ↔ ∃ l, x ∈ l ∧ l ∈ ls.
Proof. rewrite elem_of_list_In, in_concat. split; intros (l & ? & ?); exists l; by rewrite !elem_of_list_In in *. Qed.
Lemma zip_rev_pairs (nc w : nat) (obs : list nat) i j :
  (i, j) ∈ concat ((λ q, zip q.1 q.2) <$> zip ((λ t, (λ v, t * nc + v) <$> obs) <$> seq 0 w) (rev ((λ t, (λ v, t * nc + v) <$> obs) <$> seq 0 w))) ↔
  ∃ t v, t < w ∧ v ∈ obs ∧ i = t * nc + v ∧ j = (w - 1 - t) * nc + v.
Proof.
  set (g := λ t, (λ v, t * nc + v) <$> obs). 
  assert (∀ t, t < w → zip (g <$> seq 0 w) (rev (g <$> seq 0 w)) !! t = Some (g t, g (w - 1 - t))) as Hz.
  { intros t Ht. rewrite lookup_zip_with. rewrite list_lookup_fmap, lookup_seq_lt by done. cbn. rewrite rev_alt. change (rev_append (g <$> seq 0 w) []) with (reverse (g <$> seq 0 w)). rewrite reverse_lookup by (rewrite fmap_length, seq_length; done).
    rewrite fmap_length, seq_length, list_lookup_fmap, lookup_seq_lt by lia. cbn. do 3 f_equal. lia. }
  rewrite elem_concat. split.
  - intros (l & Hij & Hl). apply elem_of_list_fmap in Hl as ([a b] & -> & Hl). apply elem_of_list_lookup in Hl as [t Hl]. 
    assert (t < w) as Ht. { apply lookup_lt_Some in Hl. rewrite zip_with_length, fmap_length, seq_length in Hl. lia. }
    rewrite Hz in Hl by done. injection Hl as <- <-. cbn [fst snd] in Hij. apply elem_of_list_lookup in Hij as [k Hk]. rewrite lookup_zip_with in Hk. unfold g in Hk.
    rewrite !list_lookup_fmap in Hk. destruct (obs !! k) as [v|] eqn:Ev; [|done]. cbn in Hk. injection Hk as <- <-. exists t, v. split_and!; try done. by eapply elem_of_list_lookup_2.
  - intros (t & v & Ht & Hv & -> & ->). exists (zip (g t) (g (w - 1 - t))). split.
    + apply elem_of_list_lookup in Hv as [k Hk]. apply elem_of_list_lookup. exists k. rewrite lookup_zip_with. unfold g. by rewrite !list_lookup_fmap, Hk.
    + apply elem_of_list_fmap. exists (g t, g (w - 1 - t)). split; [done|]. eapply elem_of_list_lookup_2. by apply Hz.
Qed.
Lemma reverse_row_ok nc w obs (old : list A) t v : Forall (λ v, v < nc) obs → length old = w * nc → t < w → v < nc →
  reverse_row zero ((λ t, (λ v, t * nc + v) <$> obs) <$> seq 0 w) old !! (t * nc + v) = if decide (v ∈ obs) then old !! ((w - 1 - t) * nc + v) else Some zero.
Proof.
  intros Ho Hl Ht Hv. unfold reverse_row. rewrite reverse_flat. rewrite Forall_forall in Ho.
  assert (∀ t v, v < nc → (t * nc + v) / nc = t ∧ (t * nc + v) mod nc = v) as Hdm.
  { intros t' v' Hv'. split; [rewrite Nat.div_add_l by lia; rewrite Nat.div_small by done; lia|]. rewrite Nat.add_comm, Nat.mod_add by lia. by apply Nat.mod_small. }
  rewrite (assign_all old (λ c, (w - 1 - c / nc) * nc + c mod nc)); [|by rewrite replicate_length|].
  - destruct (Hdm t v Hv) as [-> ->]. destruct (decide (v ∈ obs)) as [Hin|Hin].
    + rewrite decide_True; [done|]. apply elem_of_list_fmap. exists (t * nc + v, (w - 1 - t) * nc + v). split; [done|]. apply zip_rev_pairs. by exists t, v.
    + rewrite decide_False; [apply lookup_replicate_2; nia|]. rewrite elem_of_list_fmap. intros ([i j] & E & Hij). cbn in E. subst i. apply zip_rev_pairs in Hij as (t' & v' & Ht' & Hv' & E & _).
      destruct (Hdm t v Hv) as [_ E1]. destruct (Hdm t' v' (Ho _ Hv')) as [_ E2]. rewrite E, E2 in E1. by subst.
  - intros [i j] Hij. apply zip_rev_pairs in Hij as (t' & v' & Ht' & Hv' & -> & ->). cbn [fst snd]. pose proof (Ho _ Hv'). destruct (Hdm t' v') as [-> ->]; [done|]. split_and!; [nia|nia|done].
Qed.
Lemma reverse_row_length ns (old : list A) : length (reverse_row zero ns old) = length old.
Proof. unfold reverse_row. by rewrite reverse_flat, assign_length, replicate_length. Qed.
Lemma unroll_ok data nc obs w step rv : 0 < step → Forall (λ r, length r = nc) data → Forall (λ v, v < nc) obs →
  returns (unroll_temporal_data zero data nc obs w step rv) (λ '(u, full, ns),
    Forall (λ r, length r = w * nc) u ∧ (∀ r, r < length u ↔ r * step + w ≤ length data) ∧
    (∀ r t v, r < length u → t < w → v < nc → cell u r (t * nc + v) =
      if rv then (if decide (v ∈ obs) then cell data (r * step + (w - 1 - t)) v else Some zero) else cell data (r * step + t) v) ∧
    length full = w ∧ (∀ t v, t < w → v < nc → cell full t v = Some (t * nc + v)) ∧
    length ns = w ∧ (∀ t, t < w → ns !! t = Some ((λ v, t * nc + v) <$> obs))).
Proof.
  intros Hs Hd Ho. unfold unroll_temporal_data. eapply returns_bind; [by apply unroll_rows_ok|]. intros u (Hu1 & Hu2 & Hu3). rewrite nodes_observed_ok by done. cbn [mbind res_bind returns].
  assert (length (nodes_full nc w) = w ∧ length ((λ t, (λ v, t * nc + v) <$> obs) <$> seq 0 w) = w) as [L1 L2] by (unfold nodes_full; by rewrite !fmap_length, !seq_length).
  assert (∀ t, t < w → ((λ t, (λ v, t * nc + v) <$> obs) <$> seq 0 w) !! t = Some ((λ v, t * nc + v) <$> obs)) as L3 by (intros t Ht; by rewrite list_lookup_fmap, lookup_seq_lt).
  assert (∀ t v, t < w → v < nc → cell (nodes_full nc w) t v = Some (t * nc + v)) as L4 by apply nodes_full_lookup.
  destruct rv; [|split_and!; try done; exact Hu3].
  rewrite map_length. split; [|split; [done|split; [|split_and!; done]]].
  - apply Forall_forall. intros r Hr. apply elem_of_list_In, in_map_iff in Hr as (r' & <- & Hr). rewrite reverse_row_length. rewrite Forall_forall in Hu1. by apply Hu1, elem_of_list_In.
  - intros r t v Hr Ht Hv. unfold cell at 1. change (List.map (reverse_row zero ((λ t, (λ v, t * nc + v) <$> obs) <$> seq 0 w)) u) with (reverse_row zero ((λ t, (λ v, t * nc + v) <$> obs) <$> seq 0 w) <$> u).
    rewrite list_lookup_fmap. destruct (lookup_lt_is_Some_2 u r Hr) as [row Er]. rewrite Er. cbn. rewrite reverse_row_ok; [|done|rewrite Forall_forall in Hu1; by eapply Hu1, elem_of_list_lookup_2|done|done].
    destruct (decide (v ∈ obs)); [|done]. rewrite <-Hu3 by (done || lia). unfold cell. rewrite Er. done.
Qed.
End unroll.

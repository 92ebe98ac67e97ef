(** C19: column numbering is a bijection. *)
From mathcomp Require Import all_ssreflect all_algebra.
From Verif.Model Require Import Base PlonkVariable PlonkTable.
From Verif.Proofs Require Import NatTac PermProofs TableProofs.
Set Implicit Arguments.
Unset Strict Implicit.
Unset Printing Implicit Defensive.

(** The variable names an existing column of a table with the given numbers of columns. *)
Definition valid_variable (d : table_description) (v : plonk_variable) : bool :=
  match pv_type v with
  | CWitness => pv_index v < td_witness d
  | CPublicInput => pv_index v < td_public_input d
  | CConstant => pv_index v < td_constant d
  | CSelector => pv_index v < td_selector d
  | CUninitialized => false
  end.
(** The column a variable names, by kind. *)
Definition column_of (T : Type) (t : plonk_table T) (v : plonk_variable) : option (seq T) :=
  match pv_type v with
  | CWitness => vget (pr_witnesses (pt_private t)) (pv_index v)
  | CPublicInput => vget (pu_public_inputs (pt_public t)) (pv_index v)
  | CConstant => vget (pu_constants (pt_public t)) (pv_index v)
  | CSelector => vget (pu_selectors (pt_public t)) (pv_index v)
  | CUninitialized => None
  end.
(** The description has the table's numbers of columns. *)
Definition describes (T : Type) (d : table_description) (t : plonk_table T) : Prop :=
  [/\ td_witness d = size (pr_witnesses (pt_private t)), td_public_input d = size (pu_public_inputs (pt_public t)),
      td_constant d = size (pu_constants (pt_public t)) & td_selector d = size (pu_selectors (pt_public t))].

(** Valid variables are numbered below the width ... *)
Theorem C19_range d v : valid_variable d v -> exists2 k, global_index d v = Some k & k < table_width d.
Proof.
rewrite /valid_variable /global_index /table_width; case: (pv_type v) => // h; eexists; try by reflexivity.
all: slia.
Qed.
(** ... different columns get different numbers (rotation and [relative] do not matter) ... *)
Theorem C19_injective d v w : valid_variable d v -> valid_variable d w -> global_index d v = global_index d w <->
  pv_type v = pv_type w /\ pv_index v = pv_index w.
Proof.
rewrite /valid_variable /global_index => hv hw; split; last by move=> [-> ->].
by move: hv hw; case: (pv_type v) => //; case: (pv_type w) => // h1 h2 [] h3; (split=> //; slia) || (exfalso; slia).
Qed.
(** ... and every number below the width is taken. *)
Theorem C19_surjective d k : k < table_width d -> exists2 v, valid_variable d v & global_index d v = Some k.
Proof.
rewrite /table_width => hk; case: (ltnP k (td_witness d)) => h1; first by exists (PlonkVariable k 0 true CWitness).
case: (ltnP k (td_witness d + td_public_input d)) => h2.
  exists (PlonkVariable (k - td_witness d) 0 true CPublicInput); rewrite /valid_variable /global_index /=; first by slia.
  by congr Some; slia.
case: (ltnP k (td_witness d + td_public_input d + td_constant d)) => h3.
  exists (PlonkVariable (k - (td_witness d + td_public_input d)) 0 true CConstant); rewrite /valid_variable /global_index /=; first by slia.
  by congr Some; slia.
exists (PlonkVariable (k - (td_witness d + td_public_input d + td_constant d)) 0 true CSelector); rewrite /valid_variable /global_index /=; first by slia.
by congr Some; slia.
Qed.
(** [table[global_index(v)]] is the column [v] names. *)
Theorem C19_access T d (t : plonk_table T) v k : describes d t -> valid_variable d v -> global_index d v = Some k ->
  table_at t k = column_of t v /\ column_of t v <> None.
Proof.
move=> [h1 h2 h3 h4]; rewrite /valid_variable /global_index /column_of table_atE /all_columns h1 h2 h3 h4.
have H (s : seq (seq T)) i : i < size s -> vget s i <> None by move=> hi; rewrite (vget_nth [::] hi).
have L (a b : seq (seq T)) i : vget (a ++ b) (size a + i) = vget b i by rewrite vget_cat ltnNge leq_addr /= addKn.
have L0 (a b : seq (seq T)) i : i < size a -> vget (a ++ b) i = vget a i by move=> hi; rewrite vget_cat hi.
by case: (pv_type v) => // h [<-]; split; (try exact: H); rewrite -?addnA ?L ?L0.
Qed.
(** Access throws exactly outside the table. *)
Theorem C19_out_of_range T d (t : plonk_table T) k : describes d t -> (table_at t k = None <-> table_width d <= k).
Proof.
move=> [h1 h2 h3 h4]; rewrite /table_width h1 h2 h3 h4 table_atE.
have -> : size (pr_witnesses (pt_private t)) + size (pu_public_inputs (pt_public t)) + size (pu_constants (pt_public t)) + size (pu_selectors (pt_public t)) = size (all_columns t).
  by rewrite /all_columns !size_cat !addnA.
split=> [|h]; last exact: vget_None.
by case: (leqP (size (all_columns t)) k) => // h; rewrite (vget_nth [::] h).
Qed.
(** [size()] of the table is the width. *)
Theorem C19_size T d (t : plonk_table T) : describes d t -> table_size t = table_width d.
Proof. by move=> [h1 h2 h3 h4]; rewrite /table_size /public_size /table_width h1 h2 h3 h4 !addnA. Qed.

Example C19_witness :
  let t := PlonkTable (PrivateTable [:: [:: 1; 2]; [:: 3; 4]]) (PublicTable [:: [:: 5]] [::] [:: [:: 6]; [:: 7]]) in
  let d := TableDescription 2 1 0 2 2 8 in
  let v := PlonkVariable 1 0 true CSelector in
  [/\ describes d t, valid_variable d v, global_index d v = Some 4, table_at t 4 = Some [:: 7] & table_at t 5 = None].
Proof. by []. Qed.

Print Assumptions C19_range.
Print Assumptions C19_injective.
Print Assumptions C19_surjective.
Print Assumptions C19_access.
Print Assumptions C19_out_of_range.
Print Assumptions C19_size.

(** Lemmas about the permutation argument of Model/PermutationArgument.v. *)
From mathcomp Require Import all_ssreflect all_algebra.
From Verif.Model Require Import Base OrderedMap Domain PlonkVariable PlonkTable CycleRepresentation PermutationArgument.
From Verif.Proofs Require Import NatTac FieldTac DomainProofs PermProofs TableProofs.
Set Implicit Arguments.
Unset Strict Implicit.
Unset Printing Implicit Defensive.
Import GRing.Theory.
Local Open Scope ring_scope.

Section Dom.
Variables (F : fieldType) (omega : F) (rows : nat).
Hypothesis prim : rows.-primitive_root omega.
Notation dfs := (dfs_of_values omega rows).

Lemma size_domain : size (basic_domain omega rows) = rows.
Proof. by rewrite size_map size_iota. Qed.
Lemma nth_domain j : (j < rows)%N -> nth 0 (basic_domain omega rows) j = omega ^+ j.
Proof. by move=> h; rewrite (nth_map 0%N) ?size_iota // nth_iota. Qed.
Lemma uniq_domain : uniq (basic_domain omega rows).
Proof.
rewrite map_inj_in_uniq ?iota_uniq // => i j; rewrite !mem_iota !add0n /= => hi hj /eqP.
by rewrite (eq_prim_root_expr prim) !modn_small // => /eqP.
Qed.
Lemma mem_domain j : omega ^+ j \in basic_domain omega rows.
Proof.
apply/mapP; exists (j %% rows)%N; first by rewrite mem_iota add0n ltn_mod (prim_order_gt0 prim).
by rewrite (prim_expr_mod prim).
Qed.
Lemma mem_domainP x : reflect (exists2 j, (j < rows)%N & x = omega ^+ j) (x \in basic_domain omega rows).
Proof.
apply: (iffP mapP) => -[j]; rewrite ?mem_iota => h ->; first by exists j.
by exists j; rewrite ?mem_iota.
Qed.
Lemma dfs_at v j : (j < rows)%N -> (dfs v).[omega ^+ j] = nth 0 v j.
Proof. by move=> h; rewrite -(nth_domain h) inverse_fft_at ?uniq_domain ?size_domain. Qed.
Lemma size_dfs v : (size (dfs v) <= rows)%N.
Proof. by apply: leq_trans (size_Poly _) _; rewrite size_inverse_fft size_domain. Qed.
Lemma shift_at (p : {poly F}) k x : (polynomial_shift omega p k).[x] = p.[omega ^ k * x].
Proof. by rewrite /polynomial_shift horner_comp hornerZ hornerX. Qed.
Lemma shift1_at (p : {poly F}) x : (polynomial_shift omega p 1).[x] = p.[omega * x].
Proof. by rewrite shift_at. Qed.
Lemma lagrange_at_dom number j : (j < rows)%N -> (lagrange_polynomial omega rows number).[omega ^+ j] = (j == number)%:R.
Proof. by move=> h; rewrite dfs_at // (nth_map 0%N) ?size_iota // nth_iota // add0n; case: eqP. Qed.
Lemma blind_at_dom usable j : (j < rows)%N -> (selector_blind omega rows usable).[omega ^+ j] = (usable < j)%N%:R.
Proof. by move=> h; rewrite dfs_at // (nth_map 0%N) ?size_iota // nth_iota // add0n; case: ltnP. Qed.
Lemma identity_at delta i j : (j < rows)%N -> (dfs (identity_values omega rows delta i)).[omega ^+ j] = delta ^+ i * omega ^+ j.
Proof.
move=> h; rewrite dfs_at // /identity_values (set_nth_default (delta ^+ i)) ?size_traject // nth_traject //.
by elim: j {h} => [|j ih] /=; rewrite ?expr0 ?mulr1 // ih exprSr mulrA.
Qed.
End Dom.

Section Chunks.
Variable R : ringType.
Implicit Types (gs : seq R) (m : nat).

Lemma chunk_steps m gs st : (m != 1)%N ->
  (m != 0%N -> (size st.2 < m - 1)%N) ->
  let st' := foldl (chunk_step m) st gs in
  [/\ \prod_(x <- st'.1) x * \prod_(x <- st'.2) x = \prod_(x <- st.1) x * \prod_(x <- st.2) x * \prod_(x <- gs) x,
      m != 0%N -> (size st'.2 < m - 1)%N &
      if m == 0%N then size st'.1 = size st.1 /\ size st'.2 = (size st.2 + size gs)%N
      else (size st'.1 * (m - 1) + size st'.2 = size st.1 * (m - 1) + size st.2 + size gs)%N].
Proof.
move=> m1; elim: gs st => [|g gs ih] [s1 s2] /= hs.
  by rewrite big_nil mulr1 !addn0; split=> //; case: eqP.
case: (ih (chunk_step m (s1, s2) g)) => [m0|].
  rewrite /chunk_step m0 /=; case: eqP => [_|/eqP] /=.
    by move: m0 m1; case: m {hs ih} => // -[|m].
  by rewrite size_rcons ltn_neqAle => ->; apply: hs.
move=> h1 h2 h3; split=> //.
  rewrite h1 big_cons mulrA; congr (_ * _); rewrite /chunk_step; case: ifP => /= _.
    by rewrite big_nil mulr1 -!cats1 !big_cat !big_seq1 /= mulrA.
  by rewrite -cats1 big_cat big_seq1 /= mulrA.
move: h3; rewrite /chunk_step size_rcons; case: eqP => [->|/eqP m0] /=.
  by rewrite size_rcons addSnnS.
case: eqP => [e|ne] /=; rewrite ?size_rcons => ->; last by rewrite addnS addSnnS addnS.
by rewrite addn0 mulSn -e; move: (size s1 * _)%N => k; slia.
Qed.
Lemma chunk_prod m gs : m != 1%N -> \prod_(x <- chunk_products m gs) x = \prod_(x <- gs) x.
Proof.
move=> m1; have := @chunk_steps m gs ([::], [::]) m1; rewrite /chunk_products.
case: (foldl _ _ _) => s1 s2 /= [].
  by case: m m1 => [|[|m]] //; rewrite subn1.
rewrite !big_nil !mul1r => <- _ _; case: eqP => [/size0nil->|_] /=; first by rewrite big_nil mulr1.
by rewrite -cats1 big_cat big_seq1.
Qed.
Lemma size_chunks m gs n : permutation_partitions_num (size gs) m = Some n -> size (chunk_products m gs) = n.
Proof.
rewrite /permutation_partitions_num /chunk_products.
case: (eqVneq m 1%N) => [->|m1]; first by case: eqP => // /size0nil-> [<-].
have [| _ h1 h2] := @chunk_steps m gs ([::], [::]) m1; first by case: m m1 => [|[|m]] //; rewrite subn1.
move: h1 h2; case: (foldl _ _ _) => s1 s2 /= h1 h2.
have sz : size (if size s2 != 0%N then rcons s1 (\prod_(x <- s2) x) else s1) = (size s1 + (size s2 != 0%N))%N.
  by case: eqP => _ /=; rewrite ?size_rcons ?addn0 ?addn1.
rewrite sz; move: h2; case: (eqVneq m 0%N) => [m0 [-> ->]|m0].
  by rewrite !add0n; case: eqP => _ [<-].
rewrite /= add0n => h2; have := h1 m0 => hlt.
have hm : (0 < m - 1)%N by apply: leq_ltn_trans hlt.
have hd : (size gs %/ (m - 1) = size s1)%N by rewrite -h2 divnMDl // divn_small // addn0.
have hr : (size gs %% (m - 1) = size s2)%N by rewrite -h2 modnMDl modn_small.
case: eqP => [e|_].
  by move=> [<-]; rewrite -hd -hr e div0n mod0n.
by rewrite hd hr; case: eqP => _ [<-]; rewrite ?addn0 ?addn1.
Qed.
Lemma size_chunk_eq m (gs hs : seq R) : size gs = size hs -> size (chunk_products m gs) = size (chunk_products m hs).
Proof.
rewrite /chunk_products.
have H st st' : size st.1 = size st'.1 -> size st.2 = size st'.2 -> size gs = size hs ->
  size (foldl (chunk_step m) st gs).1 = size (foldl (chunk_step m) st' hs).1 /\
  size (foldl (chunk_step m) st gs).2 = size (foldl (chunk_step m) st' hs).2.
  elim: gs hs st st' => [|g gs ih] [|h hs] //= st st' h1 h2 [h3]; apply: ih => //.
    by rewrite /chunk_step !size_rcons h2; case: ifP => //= _; rewrite ?size_rcons h1.
  by rewrite /chunk_step !size_rcons h2; case: ifP => //= _; rewrite ?size_rcons h2.
move=> hsz; have [h1 h2] := H ([::], [::]) ([::], [::]) erefl erefl hsz.
by rewrite h2; case: ifP => _; rewrite ?size_rcons h1.
Qed.
End Chunks.

Lemma chunk_map (R S : ringType) (f : {rmorphism R -> S}) m gs :
  [seq f g | g <- chunk_products m gs] = chunk_products m [seq f g | g <- gs].
Proof.
rewrite /chunk_products.
have H st : foldl (chunk_step m) ([seq f x | x <- st.1], [seq f x | x <- st.2]) [seq f g | g <- gs] =
   ([seq f x | x <- (foldl (chunk_step m) st gs).1], [seq f x | x <- (foldl (chunk_step m) st gs).2]).
  elim: gs st => //= g gs ih st; rewrite -ih; congr foldl.
  rewrite /chunk_step /= -map_rcons size_map; case: ifP => //= _.
  by rewrite big_map [in RHS]map_rcons rmorph_prod.
have := H ([::], [::]) => /= ->; rewrite /= size_map; case: ifP => //= _.
by rewrite map_rcons rmorph_prod big_map.
Qed.

Lemma horner_1 (R : ringType) (y : R) : (1 : {poly R}).[y] = 1.
Proof. by rewrite -polyC1 hornerC. Qed.

Section V.
Variable F : fieldType.
Lemma size_perm_parts (omega : F) u gs hs p : size gs = size hs -> size (perm_parts omega u gs hs p) = size gs.
Proof. by elim: gs hs p => [|g gs ih] [|h hs] //= p [e]; rewrite ih. Qed.
Lemma size_factors (S cols : seq {poly F}) b g : size cols = size S -> size (perm_factors S cols b g) = size cols.
Proof. by move=> h; rewrite size_map size_zip h minnn. Qed.
Lemma vchunk_productsE m (gs : seq F) : vchunk_products m gs = chunk_products m gs.
Proof.
rewrite /vchunk_products /chunk_products.
have H st : foldl (vchunk_step m) (st.1, \prod_(x <- st.2) x, size st.2) gs =
   ((foldl (chunk_step m) st gs).1, \prod_(x <- (foldl (chunk_step m) st gs).2) x, size (foldl (chunk_step m) st gs).2).
  elim: gs st => //= g gs ih st; rewrite -ih; congr foldl.
  rewrite /vchunk_step /chunk_step /= size_rcons; case: ifP => //= _; rewrite ?big_nil -?cats1 big_cat big_seq1 //=.
  by rewrite size_cat addn1.
by have := H ([::], [::]); rewrite /= big_nil => ->.
Qed.
End V.

(** ** The grand product *)
Section Grand.
Variables (F : fieldType) (omega : F) (rows : nat).
Hypothesis prim : rows.-primitive_root omega.
Implicit Types (g_v h_v : seq {poly F}).

Lemma foldl_mul (A : Type) (f : A -> F) l a : foldl (fun a x => a * f x) a l = a * \prod_(x <- l) f x.
Proof. by elim: l a => [|x l ih] a /=; rewrite ?big_nil ?mulr1 // ih big_cons mulrA. Qed.
Lemma size_grand g_v h_v v pts : size (grand_product g_v h_v v pts) = size pts.
Proof. by elim: pts v => //= x pts ih v; rewrite ih. Qed.
Lemma size_V_P g_v h_v : size (V_P_values omega rows g_v h_v) = rows.
Proof. by have := prim_order_gt0 prim; case: rows => // r _; rewrite /= size_grand size_map size_iota subn1. Qed.
Lemma nth_grand g_v h_v v pts j : (j < size pts)%N ->
  nth 0 (v :: grand_product g_v h_v v pts) j.+1 =
  nth 0 (v :: grand_product g_v h_v v pts) j * \prod_(g <- g_v) g.[nth 0 pts j] * (\prod_(h <- h_v) h.[nth 0 pts j])^-1.
Proof.
elim: pts v j => //= x pts ih v [|j] /= hj; first by rewrite !foldl_mul !mul1r.
by rewrite -ih.
Qed.
Lemma nth_V_P g_v h_v j : (j.+1 < rows)%N -> nth 0 (V_P_values omega rows g_v h_v) j.+1 =
  nth 0 (V_P_values omega rows g_v h_v) j * \prod_(g <- g_v) g.[omega ^+ j] * (\prod_(h <- h_v) h.[omega ^+ j])^-1.
Proof.
move=> hj; have hj' : (j < rows - 1)%N by slia.
rewrite /V_P_values nth_grand ?size_map ?size_iota // !(nth_map 0%N) ?size_iota // nth_iota //.
Qed.
Lemma V_P_prod g_v h_v u : (u < rows)%N ->
  nth 0 (V_P_values omega rows g_v h_v) u =
  \prod_(j <- iota 0 u) \prod_(g <- g_v) g.[omega ^+ j] * (\prod_(j <- iota 0 u) \prod_(h <- h_v) h.[omega ^+ j])^-1.
Proof.
elim: u => [|u ih] hu; first by rewrite !big_nil invr1 mulr1.
rewrite nth_V_P // ih; last exact: ltnW.
have -> : iota 0 u.+1 = iota 0 u ++ [:: u] by rewrite -addn1 iotaD.
by rewrite !big_cat !big_seq1 /= invfM -!mulrA; congr (_ * _); rewrite mulrCA.
Qed.
End Grand.

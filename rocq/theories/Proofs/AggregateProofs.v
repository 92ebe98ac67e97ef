(** Aggregation of Groth16 proofs: folding, openings, the batch equation. *)
From mathcomp Require Import all_ssreflect all_algebra ssrAC.
From Verif.Model Require Import Base KnowledgeCommitment Groth16 OrderedMap Aggregate.
From Verif.Spec Require Import GroupSpec.
From Verif.Proofs Require Import NatTac KcProofs FieldTac.
Set Implicit Arguments.
Unset Strict Implicit.
Unset Printing Implicit Defensive.
Import GRing.Theory.
Local Open Scope ring_scope.

Section Fold.
Variables (F : fieldType).
Add Field Ff_agg : (@ffield_theory F).

(** Inner products for a bilinear map. *)
Section Bil.
Variables (U V W : lmodType F) (B : U -> V -> W).
Hypothesis Bb : bilinear B.

Definition ipg (a : seq U) (b : seq V) : W := \sum_(p <- zip a b) B p.1 p.2.

Lemma B0l x : B 0 x = 0.
Proof. by have := e_scalel Bb 0 0 x; rewrite !scale0r. Qed.
Lemma B0r x : B x 0 = 0.
Proof. by have := e_scaler Bb 0 x 0; rewrite !scale0r. Qed.

Lemma ipg_cons x a y b : ipg (x :: a) (y :: b) = B x y + ipg a b.
Proof. by rewrite /ipg /= big_cons. Qed.
Lemma ipg_nil : ipg [::] [::] = 0.
Proof. by rewrite /ipg big_nil. Qed.
Lemma ipg1 x y : ipg [:: x] [:: y] = B x y.
Proof. by rewrite ipg_cons ipg_nil addr0. Qed.

Lemma ipg_cat a a' b b' : size a = size b -> ipg (a ++ a') (b ++ b') = ipg a b + ipg a' b'.
Proof. by move=> h; rewrite /ipg zip_cat // big_cat. Qed.

Lemma ipg_fold4 (al ar : seq U) (bl br : seq V) (c d : F) :
  size al = size ar -> size al = size bl -> size al = size br -> c * d = 1 ->
  ipg [seq p.1 + c *: p.2 | p <- zip al ar] [seq p.1 + d *: p.2 | p <- zip bl br]
  = ipg al bl + ipg ar br + c *: ipg ar bl + d *: ipg al br.
Proof.
elim: al ar bl br => [|x al IH] [|x' ar] [|y bl] [|y' br] //=.
- by move=> *; rewrite ipg_nil !scaler0 !addr0.
move=> [h1] [h2] [h3] hcd; rewrite !ipg_cons IH // (e_addl Bb) !(e_addr Bb) !(e_scalel Bb) !(e_scaler Bb).
rewrite !scalerDr scalerA hcd scale1r.
move: (B x y) (B x y') (B x' y) (B x' y') (ipg _ _) (ipg _ _) (ipg _ _) (ipg _ _) => s1 s2 s3 s4 t1 t2 t3 t4.
by rewrite (AC (2*2*4) ((1*5)*(4*6)*(3*7)*(2*8))).
Qed.

Lemma ipg_compress (a : seq U) (b : seq V) n (c d : F) : size a = (n + n)%N -> size b = (n + n)%N -> c * d = 1 ->
  ipg (compress a n c) (compress b n d)
  = ipg a b + c *: ipg (drop n a) (take n b) + d *: ipg (take n a) (drop n b).
Proof.
move=> ha hb hcd; rewrite /compress ipg_fold4 ?size_takel ?size_drop ?ha ?hb ?addnK ?leq_addr //.
suff -> : ipg a b = ipg (take n a) (take n b) + ipg (drop n a) (drop n b) by [].
by rewrite -ipg_cat ?cat_take_drop // !size_takel ?ha ?hb ?leq_addr.
Qed.
End Bil.

Lemma size_compress (V : lmodType F) (v : seq V) n c : size v = (n + n)%N -> size (compress v n c) = n.
Proof. by move=> h; rewrite size_map size_zip size_takel ?size_drop h ?addnK ?minnn ?leq_addr. Qed.

(** Folding a vector by a list of challenges down to one element. *)
Fixpoint foldv (V : lmodType F) (v : seq V) (xs : seq F) : V :=
  if xs is x :: xs' then foldv (compress v (size v %/ 2) x) xs' else nth 0 v 0.

Fixpoint prodf (y : F) (xs : seq F) : F := if xs is x :: xs' then (1 + x * y) * prodf (y * y) xs' else 1.

Lemma prodf_rcons y xs x : prodf y (rcons xs x) = prodf y xs * (1 + x * y ^+ (2 ^ size xs)).
Proof.
elim: xs y => [|x' xs IH] y /=; first by rewrite expn0 expr1 mulr1 mul1r.
by rewrite IH -expr2 -exprM -expnS mulrA.
Qed.

Lemma size_gen_powers (V : lmodType F) (g : V) s n : size (gen_powers g s n) = n.
Proof. by elim: n g => //= n IH g; rewrite IH. Qed.

Lemma nth_gen_powers (V : lmodType F) (g : V) s n i : (i < n)%N -> nth 0 (gen_powers g s n) i = s ^+ i *: g.
Proof.
elim: n g i => [//|n IH] g [|i] /= h; first by rewrite expr0 scale1r.
by rewrite IH // scalerA exprSr.
Qed.

Lemma gen_powersE (V : lmodType F) (g : V) s n : gen_powers g s n = mkseq (fun i => s ^+ i *: g) n.
Proof.
apply: (@eq_from_nth _ 0); rewrite size_gen_powers ?size_mkseq // => i hi.
by rewrite nth_gen_powers // nth_mkseq.
Qed.

Lemma take_gen_powers (V : lmodType F) (g : V) s n m : (m <= n)%N -> take m (gen_powers g s n) = gen_powers g s m.
Proof. by rewrite !gen_powersE /mkseq -map_take => h; rewrite take_iota; congr (map _ (iota _ _)); apply/minn_idPl. Qed.

Lemma drop_gen_powers (V : lmodType F) (g : V) s n m :
  drop m (gen_powers g s (m + n)) = gen_powers (s ^+ m *: g) s n.
Proof.
elim: m g => [|m IH] g; first by rewrite drop0 expr0 scale1r.
by rewrite addSn /= IH scalerA exprSr.
Qed.

Lemma compress_gen_powers (V : lmodType F) (g : V) s n x :
  compress (gen_powers g s (n + n)) n x = gen_powers ((1 + x * s ^+ n) *: g) s n.
Proof.
rewrite /compress take_gen_powers ?leq_addr // drop_gen_powers.
apply: (@eq_from_nth _ 0).
  by rewrite size_map size_zip !size_gen_powers minnn.
rewrite size_map size_zip !size_gen_powers minnn => i hi.
rewrite (nth_map (0, 0)) ?size_zip ?size_gen_powers ?minnn // nth_zip ?size_gen_powers //= !nth_gen_powers //.
by rewrite !scalerA -scalerDl; congr (_ *: _); move: (s ^+ i) (s ^+ n) => u v; fring F.
Qed.

Lemma foldv_gen_powers (V : lmodType F) (g : V) s xs :
  foldv (gen_powers g s (2 ^ size xs)) xs = prodf s (rev xs) *: g.
Proof.
elim: xs g => [|x xs IH] g; first by rewrite /= scale1r.
rewrite [size _]/= expnS mul2n -addnn.
rewrite -[LHS]/(foldv (compress (gen_powers g s (2 ^ size xs + 2 ^ size xs)) (size (gen_powers g s (2 ^ size xs + 2 ^ size xs)) %/ 2) x) xs).
rewrite size_gen_powers addnn -muln2 mulnK // muln2 -addnn compress_gen_powers IH scalerA rev_cons prodf_rcons size_rev.
by [].
Qed.

(** The polynomial of the challenges. *)
Lemma eval_product_loopE acc y xs : eval_product_loop acc y xs = acc * prodf y xs.
Proof. by elim: xs acc y => [|x xs IH] acc y /=; rewrite ?mulr1 // IH mulrA. Qed.

Lemma eval_productE xs z r : xs != [::] -> eval_product xs z r = Some (prodf (z * r) xs).
Proof. by case: xs => [//|x xs] _; rewrite /eval_product eval_product_loopE. Qed.

Lemma size_coefficients_loop (cs : seq F) p xs : size (coefficients_loop cs p xs) = (2 ^ size xs * size cs)%N.
Proof.
elim: xs cs p => [|x xs IH] cs p /=; first by rewrite mul1n.
by rewrite IH size_cat size_map expnS addnn -mul2n mulnA [(2 ^ _ * 2)%N]mulnC.
Qed.

Lemma horner_cat (a b : seq F) z : (Poly (a ++ b)).[z] = (Poly a).[z] + z ^+ size a * (Poly b).[z].
Proof.
elim: a => [|x a IH] /=; first by rewrite horner0 add0r mul1r.
rewrite !horner_cons IH exprS.
by move: (_.[z]) (_.[z]) (z ^+ _) => u v w; fring F.
Qed.

Lemma horner_scale (a : seq F) c z : (Poly [seq x * c | x <- a]).[z] = (Poly a).[z] * c.
Proof.
elim: a => [|x a IH] /=; first by rewrite horner0 mul0r.
by rewrite !horner_cons IH mulrDl mulrAC.
Qed.

Lemma horner_coefficients_loop cs p xs z :
  (Poly (coefficients_loop cs p xs)).[z] = (Poly cs).[z] * prodf (p * z ^+ size cs) xs.
Proof.
elim: xs cs p => [|x xs IH] cs p /=; first by rewrite mulr1.
rewrite IH horner_cat horner_scale size_cat size_map exprD.
rewrite [p * p * _]mulrACA.
by set v := prodf _ xs; set w := z ^+ _; set u := _.[z]; clearbody u w v; fring F.
Qed.

Lemma size_coefficients (xs : seq F) r : size (coefficients_from_transcript xs r) = (2 ^ size xs)%N.
Proof. by rewrite size_coefficients_loop muln1. Qed.

Lemma horner_coefficients xs r z : (Poly (coefficients_from_transcript xs r)).[z] = prodf (z * r) xs.
Proof. by rewrite horner_coefficients_loop /= horner_cons horner0 mul0r add0r mul1r expr1 mulrC. Qed.

Lemma last_coefficients_loop (cs : seq F) p xs d : cs != [::] -> last d cs != 0 -> p != 0 -> all (fun x => x != 0) xs ->
  last d (coefficients_loop cs p xs) != 0.
Proof.
elim: xs cs p => [//|x xs IH] cs p hcs hl hp /= /andP[hx hxs].
apply: IH => //; first by case: cs hcs {hl}.
- rewrite last_cat; case: cs hcs hl => [//|y cs] _ /= hl.
  by rewrite -[y * _]/((fun c => c * (x * p)) y) last_map mulf_neq0 // mulf_neq0.
- by rewrite mulf_neq0.
Qed.

Lemma polyseq_coefficients (xs : seq F) : all (fun x => x != 0) xs ->
  polyseq (Poly (coefficients_from_transcript xs 1)) = coefficients_from_transcript xs 1.
Proof.
move=> h; apply: PolyK 0 _ _.
by apply: last_coefficients_loop => //=; rewrite oner_eq0.
Qed.

(** Openings. *)
Lemma multiexp_gen_powers (V : lmodType F) (g : V) s n (q : seq F) : (size q <= n)%N ->
  multiexp (gen_powers g s n) q = (Poly q).[s] *: g.
Proof.
elim: q n g => [|c q IH] [|n] g //= h; rewrite ?horner0 ?scale0r //.
by rewrite IH // horner_cons scalerA scalerDl addrC.
Qed.

Definition kzg_quotient (p : {poly F}) (z : F) : {poly F} := (p - (p.[z])%:P) %/ ('X - z%:P).

Lemma kzg_quotientE (p : {poly F}) z s : p.[s] - p.[z] = (s - z) * (kzg_quotient p z).[s].
Proof.
have d : ('X - z%:P) %| (p - (p.[z])%:P) by rewrite dvdp_XsubCl rootE !hornerE subrr.
by rewrite mulrC -[X in _ * X](hornerXsubC z s) -hornerM /kzg_quotient divpK // hornerD hornerN hornerC.
Qed.

Lemma prove_kzg_openingE (V : lmodType F) (g : V) sa sb n (poly : seq F) z : (0 < n)%N -> size poly = n ->
  prove_kzg_opening (gen_powers g sa n) (gen_powers g sb n) poly (Poly poly).[z] z
  = Some ((kzg_quotient (Poly poly) z).[sa] *: g, (kzg_quotient (Poly poly) z).[sb] *: g).
Proof.
move=> n0 hs; rewrite /prove_kzg_opening !size_gen_powers hs eqxx -/(kzg_quotient _ _).
set q := kzg_quotient _ _.
have hq : (size q <= n)%N.
  rewrite /q /kzg_quotient size_divp ?polyXsubC_eq0 // size_XsubC subn1.
  apply: leq_trans (leq_pred _) _; apply: leq_trans (size_add _ _) _.
  by rewrite geq_max (leq_trans (size_Poly _)) ?hs // size_opp (leq_trans (size_polyC_leq1 _)).
have qE : Poly (mkseq (fun i => q`_i) n) = q.
  apply/polyP => i; rewrite coef_Poly; case: (ltnP i n) => hi; first by rewrite nth_mkseq.
  by rewrite !nth_default ?size_mkseq // (leq_trans hq).
by rewrite !multiexp_gen_powers ?size_mkseq // qE.
Qed.
End Fold.

Section Gipa.
Variables (F : fieldType) (G1 G2 GT : lmodType F).
Variable e : G1 -> G2 -> GT.
Hypothesis eb : bilinear e.
Notation item := (tr_item G1 G2 GT).
Variable chal : seq item -> F.
Hypothesis chal0 : forall s, chal s != 0.

Definition smul (x : G1) (c : F^o) : G1 := c *: x.
Lemma smul_bil : bilinear (smul : G1 -> F^o -> G1).
Proof.
split=> *; rewrite /smul ?scalerDr ?scalerDl //; first by rewrite !scalerA mulrC.
by rewrite scalerA.
Qed.

Lemma ipE a b : ip e a b = ipg e a b.
Proof.
have h l : forall x, foldl (fun t p => t + e p.1 p.2) x l = x + \sum_(p <- l) e p.1 p.2.
  by elim: l => [|p l IH] x /=; rewrite ?big_nil ?addr0 // IH big_cons addrA.
by rewrite /ip h add0r.
Qed.

Lemma multiexp_ipg (c : seq G1) (r : seq F) : multiexp c r = ipg smul c r.
Proof. by elim: c r => [|x c IH] [|y r] /=; rewrite /ipg ?big_nil //= big_cons IH. Qed.

(** The six inner products of the vectors. *)
Definition tuz_of (a : seq G1) (b : seq G2) (c : seq G1) (r : seq F) (vk : ckey G2) (wk : ckey G1) : gipa_tuz G1 GT :=
  GipaTuz (ip e a (ck_a vk) + ip e (ck_a wk) b) (ip e a (ck_b vk) + ip e (ck_b wk) b) (ip e a b)
          (ip e c (ck_a vk)) (ip e c (ck_b vk)) (multiexp c r).

Definition tuz_fin (a : G1) (b : G2) (c : G1) (r : F) (vk : G2 * G2) (wk : G1 * G1) : gipa_tuz G1 GT :=
  GipaTuz (e a vk.1 + e wk.1 b) (e a vk.2 + e wk.2 b) (e a b) (e c vk.1) (e c vk.2) (r *: c).

Lemma gipa_res_merge x y cab zab cc zc cs :
  tuz_merge x (gipa_res y cab zab cc zc cs) = gipa_res (tuz_merge x y) cab zab cc zc cs :> gipa_tuz G1 GT.
Proof.
elim: cab zab cc zc cs x y => [|t cab IH] [|z zab] [|u cc] [|w zc] [|[c d] cs] x y //=.
by rewrite IH; congr gipa_res; rewrite /tuz_merge /= !addrA.
Qed.

Lemma tuz_merge0 (x : gipa_tuz G1 GT) : tuz_merge x (GipaTuz 0 0 0 0 0 0) = x.
Proof. by case: x => *; rewrite /tuz_merge /= !addr0. Qed.

Definition ck_size (V : lmodType F) (k : ckey V) n := size (ck_a k) = n /\ size (ck_b k) = n.

Lemma gipa_loopS fuel tr a b c (r : seq F) vk wk n : (0 < n)%N -> size a = (n + n)%N -> size b = (n + n)%N ->
  size c = (n + n)%N -> size r = (n + n)%N -> ck_size vk (n + n) -> ck_size wk (n + n) ->
  gipa_loop e chal fuel.+1 tr a b c r vk wk =
  (let vk1 := CKey (take n (ck_a vk)) (take n (ck_b vk)) in
   let vk2 := CKey (drop n (ck_a vk)) (drop n (ck_b vk)) in
   let wk1 := CKey (take n (ck_a wk)) (take n (ck_b wk)) in
   let wk2 := CKey (drop n (ck_a wk)) (drop n (ck_b wk)) in
   let tab_l := (ip e (drop n a) (ck_a vk1) + ip e (ck_a wk2) (take n b), ip e (drop n a) (ck_b vk1) + ip e (ck_b wk2) (take n b)) in
   let tab_r := (ip e (take n a) (ck_a vk2) + ip e (ck_a wk1) (drop n b), ip e (take n a) (ck_b vk2) + ip e (ck_b wk1) (drop n b)) in
   let zab_l := ip e (drop n a) (take n b) in
   let zab_r := ip e (take n a) (drop n b) in
   let zc_l := multiexp (drop n c) (take n r) in
   let zc_r := multiexp (take n c) (drop n r) in
   let tuc_l := (ip e (drop n c) (ck_a vk1), ip e (drop n c) (ck_b vk1)) in
   let tuc_r := (ip e (take n c) (ck_a vk2), ip e (take n c) (ck_b vk2)) in
   let tr1 := (tr ++ [:: TrGT _ _ zab_l; TrGT _ _ zab_r; TrG1 _ _ zc_l; TrG1 _ _ zc_r; TrGT _ _ tab_l.1; TrGT _ _ tab_l.2;
     TrGT _ _ tab_r.1; TrGT _ _ tab_r.2; TrGT _ _ tuc_l.1; TrGT _ _ tuc_l.2; TrGT _ _ tuc_r.1; TrGT _ _ tuc_r.2])%SEQ in
   let ci := chal tr1 in
   obnd (gipa_loop e chal fuel tr1 (compress a n ci^-1) (compress b n ci) (compress c n ci^-1)
          (compress (V := [lmodType F of F^o]) r n ci) (CKey (compress (ck_a vk) n ci) (compress (ck_b vk) n ci))
          (CKey (compress (ck_a wk) n ci^-1) (compress (ck_b wk) n ci^-1)))
     (fun o => Some (GipaOut ((tab_l, tab_r) :: go_comms_ab o) ((tuc_l, tuc_r) :: go_comms_c o) ((zab_l, zab_r) :: go_z_ab o)
      ((zc_l, zc_r) :: go_z_c o) (ci^-1 :: go_challenges o) (ci :: go_challenges_inv o) (go_a o) (go_b o) (go_c o)
      (go_vkey o) (go_wkey o) (go_tr o)))).
Proof.
move=> n0 ha hb hc hr [hva hvb] [hwa hwb].
have szt (T : Type) (v : seq T) : size v = (n + n)%N -> size (take n v) = n.
  by move=> h; rewrite size_takel // h leq_addr.
have szd (T : Type) (v : seq T) : size v = (n + n)%N -> size (drop n v) = n.
  by move=> h; rewrite size_drop h addnK.
have nle : (size a <= 1)%N = false by rewrite ha; apply/negbTE; rewrite -ltnNge; slia.
have hsp : (size a %/ 2 = n)%N by rewrite ha addnn -muln2 mulnK.
have lt2 : (0 < n < n + n)%N by rewrite n0 /= -{1}[n]addn0 ltn_add2l.
rewrite {1}/gipa_loop -/gipa_loop nle hsp /ck_split hva hvb eqxx lt2 hwa hwb eqxx lt2.
rewrite /com_pair /com_single /ck_has_correct_len /ck_compress; cbn [obnd fst snd ck_a ck_b].
by rewrite !szt // !szd // !eqxx.
Qed.

Lemma gipa_loopP k : forall fuel tr a b c (r : seq F) vk wk,
  (k <= fuel)%N -> size a = (2 ^ k)%N -> size b = (2 ^ k)%N -> size c = (2 ^ k)%N -> size r = (2 ^ k)%N ->
  ck_size vk (2 ^ k) -> ck_size wk (2 ^ k) ->
  exists o, [/\ gipa_loop e chal fuel tr a b c r vk wk = Some o,
    [/\ size (go_challenges_inv o) = k, size (go_comms_ab o) = k, size (go_comms_c o) = k, size (go_z_ab o) = k
      & size (go_z_c o) = k],
    go_challenges o = [seq x^-1 | x <- go_challenges_inv o] /\ all (fun x => x != 0) (go_challenges_inv o),
    gipa_challenges chal tr (go_comms_ab o) (go_z_ab o) (go_comms_c o) (go_z_c o) = (go_challenges_inv o, go_tr o)
    & [/\ gipa_res (tuz_of a b c r vk wk) (go_comms_ab o) (go_z_ab o) (go_comms_c o) (go_z_c o)
           (zip (go_challenges o) (go_challenges_inv o))
         = tuz_fin (go_a o) (go_b o) (go_c o) (foldv (V := [lmodType F of F^o]) r (go_challenges_inv o)) (go_vkey o) (go_wkey o),
        go_vkey o = (foldv (ck_a vk) (go_challenges_inv o), foldv (ck_b vk) (go_challenges_inv o))
      & go_wkey o = (foldv (ck_a wk) (go_challenges o), foldv (ck_b wk) (go_challenges o))]].
Proof.
elim: k => [|k IH] fuel tr a b c r vk wk hf ha hb hc hr [hva hvb] [hwa hwb].
  eexists; split; first by case: fuel {hf} => [|fuel] /=; rewrite ha hb hc hr /ck_has_correct_len hva hvb hwa hwb.
  - by [].
  - by [].
  - by [].
  split=> //=.
  case: a ha => [|a []] // _; case: b hb => [|b []] // _; case: c hc => [|c []] // _; case: r hr => [|r []] // _.
  case: vk hva hvb => [[|v []] // [|v' []] //] _ _; case: wk hwa hwb => [[|w []] // [|w' []] //] _ _.
  by rewrite /tuz_of /tuz_fin /= !ipE !ipg1 addr0.
case: fuel hf => [//|fuel] hf.
have e2 : (2 ^ k.+1 = 2 ^ k + 2 ^ k)%N by rewrite expnS mul2n addnn.
have hsp : (size a %/ 2 = 2 ^ k)%N by rewrite ha expnS mulKn.
have p2 : (0 < 2 ^ k)%N by rewrite expn_gt0.
have lt2 : (2 ^ k < 2 ^ k + 2 ^ k)%N by slia.
rewrite e2 in ha hb hc hr hva hvb hwa hwb.
have n0 := p2; rewrite (gipa_loopS _ _ n0 ha hb hc hr (conj hva hvb) (conj hwa hwb)).
cbv zeta; set tr1 := (tr ++ _)%SEQ; set ci := chal tr1.
have ci0 : ci != 0 by exact: chal0.
have cc1 : ci^-1 * ci = 1 by rewrite mulVf.
have [|||||||o [-> [s1 s2 s3 s4 s5] [ho1 ho2] hch [hres hvk hwk]]] :=
  IH fuel tr1 (compress a (2 ^ k) ci^-1) (compress b (2 ^ k) ci) (compress c (2 ^ k) ci^-1)
     (compress (V := [lmodType F of F^o]) r (2 ^ k) ci)
     (CKey (compress (ck_a vk) (2 ^ k) ci) (compress (ck_b vk) (2 ^ k) ci))
     (CKey (compress (ck_a wk) (2 ^ k) ci^-1) (compress (ck_b wk) (2 ^ k) ci^-1)).
- by [].
- exact: size_compress.
- exact: size_compress.
- exact: size_compress.
- exact: (size_compress (V := [lmodType F of F^o])).
- by split; exact: size_compress.
- by split; exact: size_compress.
eexists; split; first by [].
- by rewrite /= s1 s2 s3 s4 s5.
- by rewrite /= ho1 ci0.
- by rewrite /= -/tr1 hch.
split.
- cbn [go_challenges go_challenges_inv go_comms_ab go_comms_c go_z_ab go_z_c go_a go_b go_c go_vkey go_wkey zip gipa_res fst snd].
  rewrite -[foldv _ (ci :: _)]/(foldv (V := [lmodType F of F^o]) (compress (V := [lmodType F of F^o]) r (size r %/ 2) ci) (go_challenges_inv o)).
  rewrite hr addnn -muln2 mulnK // -hres; congr gipa_res.
  rewrite /tuz_of; cbn [ck_a ck_b tz_tab tz_uab tz_zab tz_tc tz_uc tz_zc].
  rewrite !multiexp_ipg !ipE.
  rewrite (ipg_compress eb ha hb cc1) (ipg_compress eb ha hva cc1) (ipg_compress eb ha hvb cc1).
  rewrite (ipg_compress eb hwa hb cc1) (ipg_compress eb hwb hb cc1).
  rewrite (ipg_compress eb hc hva cc1) (ipg_compress eb hc hvb cc1) (ipg_compress smul_bil hc hr cc1).
  rewrite !scalerDr.
  by congr GipaTuz; rewrite (AC (2*2*2) ((1*3*5)*(2*4*6))).
- rewrite /= hvk /=; congr (foldv (compress _ _ _) _, foldv (compress _ _ _) _).
  + by rewrite hva addnn -muln2 mulnK.
  + by rewrite hvb addnn -muln2 mulnK.
- rewrite /= hwk /=; congr (foldv (compress _ _ _) _, foldv (compress _ _ _) _).
  + by rewrite hwa addnn -muln2 mulnK.
  + by rewrite hwb addnn -muln2 mulnK.
Qed.
End Gipa.

(** Combinations of vectors by powers. *)
Section Vandermonde.
Variables (F : fieldType) (V : lmodType F).

Fixpoint hv (x : seq V) (t : F) : V := if x is a :: x' then a + t *: hv x' t else 0.
Fixpoint hs (x : seq V) (t : F) : seq V := if x is a :: x' then hv x t :: hs x' t else [::].

Lemma size_hs x t : size (hs x t) = size x.
Proof. by elim: x => //= a x ->. Qed.

Lemma hv_sub a x t t0 : hv (a :: x) t - hv (a :: x) t0 = (t - t0) *: hv (hs x t0) t.
Proof.
elim: x a => [|b x IH] a; first by rewrite /= !scaler0 !addr0 subrr.
rewrite -[hv [:: a, b & x] t]/(a + t *: hv (b :: x) t) -[hv [:: a, b & x] t0]/(a + t0 *: hv (b :: x) t0).
rewrite -[hv (hs (b :: x) t0) t]/(hv (b :: x) t0 + t *: hv (hs x t0) t).
have := IH b; move: (hv (b :: x) t) (hv (b :: x) t0) (hv (hs x t0) t) => p q s hpq.
rewrite scalerDr scalerA [(t - t0) * t]mulrC -scalerA -hpq scalerBr scalerBl opprD [a + _]addrC addrA addrK.
by rewrite [RHS]addrC addrA subrK.
Qed.

Lemma hs_zero x t : all (fun v => v == 0) (hs x t) -> all (fun v => v == 0) x.
Proof.
elim: x => [//|a x IH] /= /andP[/eqP h1 /IH h2]; rewrite h2 andbT.
suff z : hv x t = 0 by rewrite z scaler0 addr0 in h1; rewrite h1.
by elim: x h2 {IH h1} => [//|b x IH] /= /andP[/eqP-> /IH->]; rewrite scaler0 addr0.
Qed.

Lemma vandermonde (x : seq V) (ts : seq F) : uniq ts -> (size x <= size ts)%N -> {in ts, forall t, hv x t = 0} ->
  all (fun v => v == 0) x.
Proof.
elim: ts x => [|t0 ts IH] [|a x] // /andP[nin u] hs_ h0.
have h00 := h0 t0 (mem_head _ _).
have hx : all (fun v => v == 0) x.
  apply: (@hs_zero _ t0); apply: IH => //; first by rewrite size_hs.
  move=> t ht; have := hv_sub a x t t0; rewrite h00 h0 ?inE ?ht ?orbT // subrr => /esym/eqP.
  rewrite scaler_eq0 subr_eq0 => /orP[/eqP ett|/eqP//].
  by rewrite -ett ht in nin.
rewrite /= hx andbT; move: h00 => /=.
suff -> : hv x t0 = 0 by rewrite scaler0 addr0 => ->.
by elim: x hx {IH hs_ h0} => [//|b x IH] /= /andP[/eqP-> /IH->]; rewrite scaler0 addr0.
Qed.

Lemma hvE x t : hv x t = \sum_(i < size x) t ^+ i *: x`_i.
Proof.
elim: x => [|a x IH] /=; first by rewrite big_ord0.
rewrite big_ord_recl expr0 scale1r IH scaler_sumr; congr (_ + _); apply: eq_bigr => i _.
by rewrite scalerA exprS.
Qed.
End Vandermonde.

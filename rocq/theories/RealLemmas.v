(* Maxima over lists, Cauchy-Schwarz and Minkowski inequalities. *)
From mathcomp Require Import all_ssreflect all_algebra.
From Verif Require Import Prelude.

Set Implicit Arguments.
Unset Strict Implicit.
Unset Printing Implicit Defensive.
Import Order.Theory GRing.Theory Num.Theory.
Local Open Scope ring_scope.

Section BigMax.
Variables (F : realDomainType) (I : Type).
Implicit Types (s : seq I) (f : I -> F).

Lemma bigmax_ge0 s (P : pred I) f : 0 <= \big[Num.max/0]_(x <- s | P x) f x.
Proof. by elim: s => [|x s IH]; rewrite ?big_nil // big_cons; case: ifP => // _; rewrite le_maxr IH orbT. Qed.

Lemma bigmax_ubIn s f y : List.In y s -> f y <= \big[Num.max/0]_(x <- s) f x.
Proof.
elim: s => //= x s IH [->|h]; rewrite big_cons le_maxr ?lexx //.
by rewrite IH ?orbT.
Qed.

Lemma bigmax_attained s f : \big[Num.max/0]_(x <- s) f x = 0 \/ exists2 y, List.In y s & \big[Num.max/0]_(x <- s) f x = f y.
Proof.
elim: s => [|x s IH]; first by left; rewrite big_nil.
rewrite big_cons; case: leP => h; last by right; exists x; [left|].
by case: IH => [|[y h1 h2]]; [left | right; exists y; [right|]].
Qed.

Lemma bigmax_lub s f b : 0 <= b -> (forall x, List.In x s -> f x <= b) -> \big[Num.max/0]_(x <- s) f x <= b.
Proof. by move=> b0 h; case: (bigmax_attained s f) => [-> //|[y /h hy ->]]. Qed.
End BigMax.

Lemma bigmax_ub (F : realDomainType) (I : finType) (f : I -> F) y : f y <= \big[Num.max/0]_x f x.
Proof. by apply: bigmax_ubIn; apply/In_mem; rewrite mem_index_enum. Qed.

Section CS.
Variables (F : realFieldType) (I : Type) (r : seq I).
Implicit Types x y : I -> F.

Lemma sum_sqr_ge0 x : 0 <= \sum_(i <- r) x i ^+ 2.
Proof. by apply: sumr_ge0 => i _; apply: sqr_ge0. Qed.

Lemma cauchy_schwarz x y :
  (\sum_(i <- r) x i * y i) ^+ 2 <= (\sum_(i <- r) x i ^+ 2) * (\sum_(i <- r) y i ^+ 2).
Proof.
set D := \sum_(i <- r) x i * y i; set A := \sum_(i <- r) x i ^+ 2; set B := \sum_(i <- r) y i ^+ 2.
have E : \sum_(i <- r) (B * x i - D * y i) ^+ 2 = B * (A * B - D ^+ 2).
  have -> : \sum_(i <- r) (B * x i - D * y i) ^+ 2 =
     B ^+ 2 * A - (B * D * D) *+ 2 + D ^+ 2 * B.
    transitivity (\sum_(i <- r) (B ^+ 2 * x i ^+ 2 - (B * D * (x i * y i)) *+ 2 + D ^+ 2 * y i ^+ 2)).
      by apply: eq_bigr => i _; rewrite sqrrB !exprMn [B * _ * (D * _)]mulrACA.
    by rewrite big_split sumrB -!mulr_sumr sumrMnl -mulr_sumr.
  rewrite mulrBr mulr2n opprD addrA -mulrA -expr2 [D ^+ 2 * B]mulrC.
  by rewrite subrK expr2 -mulrA [B * A]mulrC.
have B0 : 0 <= B by apply: sum_sqr_ge0.
case: (ltgtP B 0) => [|Bp|BE]; first by rewrite ltNge B0.
  by rewrite -subr_ge0 -(pmulr_rge0 _ Bp) -E; apply: sumr_ge0 => i _; apply: sqr_ge0.
have D0 : D = 0.
  have y0 i : List.In i r -> y i = 0.
    move: BE; rewrite /B; elim: r {E B0 D A B} => //= j s IH.
    rewrite big_cons => /eqP; rewrite paddr_eq0 ?sqr_ge0 //; last by apply: sumr_ge0 => ? _; apply: sqr_ge0.
    by rewrite expf_eq0 => /andP[/eqP h1 /eqP h2] [<- //|h]; apply: IH.
  rewrite /D; elim: r y0 {E B0 D A B BE} => [|j s IH] h; rewrite ?big_nil // big_cons h ?mulr0 ?add0r; last by left.
  by apply: IH => i hi; apply: h; right.
by rewrite D0 BE mulr0 expr0n.
Qed.
End CS.

Lemma minkowski (F : rcfType) (I : Type) (r : seq I) (x y : I -> F) :
  Num.sqrt (\sum_(i <- r) (x i + y i) ^+ 2) <=
  Num.sqrt (\sum_(i <- r) x i ^+ 2) + Num.sqrt (\sum_(i <- r) y i ^+ 2).
Proof.
set A := \sum_(i <- r) x i ^+ 2; set B := \sum_(i <- r) y i ^+ 2.
have A0 : 0 <= A by apply: sum_sqr_ge0.
have B0 : 0 <= B by apply: sum_sqr_ge0.
have s0 : 0 <= Num.sqrt A + Num.sqrt B by rewrite addr_ge0 ?sqrtr_ge0.
rewrite -(ger0_norm s0) -sqrtr_sqr ler_wsqrtr // sqrrD !sqr_sqrtr //.
have -> : \sum_(i <- r) (x i + y i) ^+ 2 = A + (\sum_(i <- r) x i * y i) *+ 2 + B.
  by rewrite /A /B -sumrMnl -!big_split; apply: eq_bigr => i _ /=; rewrite sqrrD.
rewrite ler_add2r ler_add2l ler_muln2r /= -sqrtrM //.
apply: le_trans (ler_norm _) _; rewrite -sqrtr_sqr ler_wsqrtr //.
exact: cauchy_schwarz.
Qed.

(** P_QuadR: the quadratures of fit_function with irrational nodes (theorems only). *)
From Coq Require Import Reals Lra.
From Verif Require Import M_QuadR L_QuadR L_QuadR2.
Close Scope R_scope.
Open Scope nat_scope.
Open Scope res_scope.

(** ** C169 nodes and weights of the quadratures *)
Theorem C169_chebyshev_partial : forall a b n, (a < b)%R -> 2 <= n ->
  (forall i, i < n -> (a < cheb_node a b n i < b)%R /\ (0 < cheb_weight a b n i)%R) /\
  (forall i j, i < j -> j < n -> (cheb_node a b n i < cheb_node a b n j)%R) /\
  forall c d, tot n (fun i => cheb_weight a b n i * (c + d * cheb_node a b n i))%R = (c * (b - a) + d * ((b * b - a * a) / 2))%R.
Proof. exact chebyshev_rule. Qed.
Print Assumptions C169_chebyshev_partial.
Theorem C169_niederreiter_partial : forall a b n, (a < b)%R -> 2 <= n ->
  (forall i, (a <= nied_node a b i < b)%R) /\ (forall i j, nied_node a b i = nied_node a b j -> i = j) /\
  (0 < nied_weight a b n)%R /\ tot n (fun _ => nied_weight a b n) = (b - a)%R.
Proof. exact niederreiter_rule. Qed.
Print Assumptions C169_niederreiter_partial.
Theorem C169_legendre_partial : forall a b size x w, (a < b)%R -> 2 <= size -> gauss_legendre a b size = Ok (x, w) -> (forall i, i < size -> (a < x i < b)%R) ->
  forall i, i < size -> (0 < w i)%R /\ (size - 1 - i <> i -> x (size - 1 - i) = (a + b - x i)%R) /\ w (size - 1 - i) = w i.
Proof. exact legendre_ok. Qed.
Print Assumptions C169_legendre_partial.
Theorem C169_legendre_two_partial : forall a b, (a < b)%R -> exists x w, gauss_legendre a b 2 = Ok (x, w) /\ forall i, i < 2 -> (a < x i < b)%R.
Proof. exact legendre_two. Qed.
Print Assumptions C169_legendre_two_partial.
Theorem C169_matrix_partial : forall size x w f, 0 < size -> (forall j, j < size -> (0 < w j)%R) -> forall i, (forall j, j < size -> (0 <= f i (x i) j (x j))%R) ->
  (forall j, j < size -> (0 <= fit_quad size x w f i j)%R) /\ tot size (fit_quad size x w f i) = 1%R /\
  forall j k, j < size -> k < size -> (exists l, l < size /\ (0 < f i (x i) l (x l))%R) ->
    (fit_quad size x w f i j * (f i (x i) k (x k) * w k) = fit_quad size x w f i k * (f i (x i) j (x j) * w j))%R.
Proof. exact fit_quad_stochastic. Qed.
Print Assumptions C169_matrix_partial.
Example C169_example : (0 < 1)%R /\ (forall j, j < 2 -> (0 < cheb_weight 0 1 2 j)%R) /\ (forall j, j < 2 -> (0 <= cheb_node 0 1 2 j)%R) /\
  exists x w, gauss_legendre 0 1 2 = Ok (x, w) /\ forall i, i < 2 -> (0 < x i < 1)%R.
Proof. exact quad_example. Qed.

(** L_EigPlot: eigenvalues on the plot. *)
From Verif Require Import S_EigPlot L_Spectral L_Spectral2 L_Spectral3 L_Spectral4 L_Spectral5 L_HmmLaw.
From Coq Require Import Reals Lra Lia Permutation Sorted.
Close Scope Q_scope. Close Scope R_scope.
Open Scope nat_scope.

(** Matrix times vector *)
Definition cmv (n : nat) (A : cmat) (x : nat -> cx) (i : nat) : cx := csum n (fun j => A i j * x j)%C.
Lemma cmv_ext n A B x y i : (forall j, j < n -> A i j = B i j) -> (forall j, j < n -> x j = y j) -> cmv n A x i = cmv n B y i.
Proof. intros H K. apply csum_ext. intros j Hj. rewrite H, K by exact Hj. reflexivity. Qed.
Lemma cmv_mm n A B x i : cmv n (cmm n A B) x i = cmv n A (cmv n B x) i.
Proof.
  unfold cmv, cmm. transitivity (csum n (fun j => csum n (fun k => A i k * B k j * x j)%C)).
  - apply csum_ext. intros j _. symmetry. apply csum_mul_r.
  - rewrite csum_swap. apply csum_ext. intros k _. rewrite <- csum_mul_l. apply csum_ext. intros j _. ring.
Qed.
Lemma cmv_id n x i : i < n -> cmv n cid x i = x i.
Proof.
  intros Hi. unfold cmv. rewrite (csum_single n _ i Hi).
  - unfold cid. rewrite Nat.eqb_refl. ring.
  - intros j Hj N. unfold cid. destruct (Nat.eqb_spec i j) as [E|_]; [subst; contradiction|]. ring.
Qed.
Lemma cmv_scale n A x z i : cmv n A (fun j => z * x j)%C i = (z * cmv n A x i)%C.
Proof. unfold cmv. rewrite <- csum_mul_l. apply csum_ext. intros j _. ring. Qed.
Lemma eig_similar n A V W T z : ceq n (cmm n V W) cid -> ceq n (cmm n W V) cid -> ceq n (cmm n A V) (cmm n V T) -> (eigenvalue n A z <-> eigenvalue n T z).
Proof.
  intros VW WV E.
  assert (G : forall x i, i < n -> cmv n V (cmv n W x) i = x i) by (intros x i Hi; rewrite <- cmv_mm, (cmv_ext n _ cid x x i); [apply cmv_id, Hi|intros j Hj; apply VW; assumption|reflexivity]).
  assert (G' : forall x i, i < n -> cmv n W (cmv n V x) i = x i) by (intros x i Hi; rewrite <- cmv_mm, (cmv_ext n _ cid x x i); [apply cmv_id, Hi|intros j Hj; apply WV; assumption|reflexivity]).
  assert (AV : forall x i, i < n -> cmv n A (cmv n V x) i = cmv n V (cmv n T x) i) by (intros x i Hi; rewrite <- !cmv_mm; apply cmv_ext; [intros j Hj; apply E; assumption|reflexivity]).
  assert (Z : forall B (x : nat -> cx) i, (forall j, j < n -> x j = zeroC) -> cmv n B x i = zeroC) by (intros B x i H; apply csum_0; intros j Hj; rewrite H by exact Hj; ring).
  assert (NZ : forall B C x, (forall y i, i < n -> cmv n C (cmv n B y) i = y i) -> (exists i, i < n /\ x i <> zeroC) -> exists i, i < n /\ cmv n B x i <> zeroC).
  { intros B C x H (i & Hi & N).
    assert (D : forall m, m <= n -> (exists k, k < m /\ cmv n B x k <> zeroC) \/ forall k, k < m -> cmv n B x k = zeroC).
    { induction m as [|m IH]; intros Hm; [right; intros k Hk; lia|]. destruct IH as [(k & Hk & Nk)|IH]; [lia|left; exists k; split; [lia|exact Nk]|].
      destruct (cx_dec (cmv n B x m) zeroC) as [Em|Nm]; [|left; exists m; split; [lia|exact Nm]].
      right. intros k Hk. destruct (Nat.eq_dec k m) as [->|]; [exact Em|apply IH; lia]. }
    destruct (D n (le_n n)) as [K|K]; [exact K|]. exfalso. apply N. rewrite <- (H x i Hi). apply Z. exact K. }
  split; intros (x & N & H).
  - exists (cmv n W x). split; [exact (NZ W V x G N)|]. intros i Hi. change (cmv n T (cmv n W x) i = (z * cmv n W x i)%C).
    rewrite <- (G' (cmv n T (cmv n W x)) i Hi). rewrite <- cmv_scale. apply cmv_ext; [reflexivity|]. intros j Hj. rewrite <- AV by exact Hj.
    transitivity (cmv n A x j); [apply cmv_ext; [reflexivity|intros k Hk; apply G, Hk]|]. apply H, Hj.
  - exists (cmv n V x). split; [exact (NZ V W x G' N)|]. intros i Hi. change (cmv n A (cmv n V x) i = (z * cmv n V x i)%C).
    rewrite AV by exact Hi. rewrite <- cmv_scale. apply cmv_ext; [reflexivity|]. intros j Hj. apply H, Hj.
Qed.
(** The eigenvalues of a triangular matrix are its diagonal. *)
Lemma tri_eig_diag n T z : upper n T -> eigenvalue n T z -> exists i, i < n /\ T i i = z.
Proof.
  intros U (x & (i0 & Hi0 & N0) & H).
  assert (D : forall k, k <= n -> (exists i, i < n /\ x i <> zeroC /\ forall j, i < j -> j < n -> x j = zeroC) \/ forall j, n - k <= j -> j < n -> x j = zeroC).
  { induction k as [|k IH]; intros Hk; [right; intros; lia|]. destruct IH as [L|IH]; [lia|left; exact L|].
    destruct (cx_dec (x (n - S k)) zeroC) as [E|N].
    - right. intros j Hj Hn. destruct (Nat.eq_dec j (n - S k)) as [->|]; [exact E|apply IH; lia].
    - left. exists (n - S k). split; [lia|]. split; [exact N|]. intros j Hj Hn. apply IH; lia. }
  destruct (D n (le_n n)) as [(i & Hi & N & L)|A]; [|exfalso; apply N0, A; lia].
  exists i. split; [exact Hi|]. specialize (H i Hi). rewrite (csum_single n _ i Hi) in H.
  - assert (E : ((T i i - z) * x i)%C = zeroC) by (transitivity (T i i * x i - z * x i)%C; [ring|rewrite H; ring]).
    apply cmul_eq0 in E. destruct E as [E|E]; [|contradiction]. transitivity ((T i i - z) + z)%C; [ring|rewrite E; ring].
  - intros j Hj Nj. destruct (Nat.lt_ge_cases j i) as [C|C]; [rewrite (U i j Hi C); ring|rewrite (L j) by lia; ring].
Qed.
Definition cinv (a : cx) : cx := let d := (fst a * fst a + snd a * snd a)%R in (fst a / d, - snd a / d)%R.
Lemma cinv_r a : a <> zeroC -> (a * cinv a)%C = oneC.
Proof.
  intros N. assert (D : (fst a * fst a + snd a * snd a <> 0)%R).
  { intros E. apply N. destruct a as [x y]. cbn [fst snd] in E. apply cx_eq; cbn; nra. }
  apply cx_eq; unfold cinv; cbn [fst snd cmul oneC RtoC]; field; exact D.
Qed.
Lemma tri_diag_eig n T i : upper n T -> i < n -> eigenvalue n T (T i i).
Proof.
  intros U Hi0.
  (* the first position that carries this value *)
  assert (F : exists i', i' < n /\ T i' i' = T i i /\ forall j, j < i' -> T j j <> T i i).
  { assert (D : forall m, (exists i', i' < m /\ T i' i' = T i i /\ forall j, j < i' -> T j j <> T i i) \/ forall j, j < m -> T j j <> T i i).
    { induction m as [|m IH]; [right; intros; lia|]. destruct IH as [(k & Hk & K)|IH]; [left; exists k; split; [lia|exact K]|].
      destruct (cx_dec (T m m) (T i i)) as [E|N]; [left; exists m; split; [lia|]; split; [exact E|exact IH]|].
      right. intros j Hj. destruct (Nat.eq_dec j m) as [->|]; [exact N|apply IH; lia]. }
    destruct (D n) as [K|K]; [exact K|]. exfalso. apply (K i Hi0). reflexivity. }
  destruct F as (a & Ha & Ea & Fa). rewrite <- Ea in *. clear i Hi0 Ea. set (z := T a a) in *.
  assert (B : forall k, k <= a -> exists x : nat -> cx, x a = oneC /\ (forall j, a < j -> x j = zeroC) /\ forall j, a - k <= j -> j < n -> csum n (fun l => T j l * x l)%C = (z * x j)%C).
  { induction k as [|k IH]; intros Hk.
    - exists (fun j => if Nat.eqb j a then oneC else zeroC). split; [rewrite Nat.eqb_refl; reflexivity|].
      split; [intros j Hj; destruct (Nat.eqb_spec j a); [lia|reflexivity]|]. intros j Hj Hn. rewrite (csum_single n _ a Ha).
      + rewrite Nat.eqb_refl. destruct (Nat.eqb_spec j a) as [->|Nj]; [reflexivity|]. rewrite (U j a Hn) by lia. ring.
      + intros l Hl Nl. destruct (Nat.eqb_spec l a); [contradiction|]. ring.
    - destruct IH as (x & Xa & X0 & Xe); [lia|]. set (r := a - S k).
      set (s := csum n (fun l => if Nat.eqb l r then zeroC else T r l * x l)%C). set (v := (s * cinv (z - T r r))%C).
      assert (Nr : (z - T r r)%C <> zeroC). { intros E. apply (Fa r); [lia|]. transitivity (z - (z - T r r))%C; [ring|rewrite E; ring]. }
      exists (fun j => if Nat.eqb j r then v else x j). split; [destruct (Nat.eqb_spec a r); [lia|exact Xa]|].
      split; [intros j Hj; destruct (Nat.eqb_spec j r); [lia|apply X0, Hj]|]. intros j Hj Hn. destruct (Nat.eqb_spec j r) as [->|Nj].
      + assert (E : csum n (fun l => T r l * (if Nat.eqb l r then v else x l))%C = (s + T r r * v)%C).
        { transitivity (csum n (fun l => (if Nat.eqb l r then zeroC else T r l * x l) + (if Nat.eqb l r then T r r * v else zeroC))%C).
          - apply csum_ext. intros l Hl. destruct (Nat.eqb_spec l r) as [->|]; ring.
          - rewrite csum_add. f_equal. rewrite (csum_single n _ r Hn); [rewrite Nat.eqb_refl; reflexivity|]. intros l _ Nl. destruct (Nat.eqb_spec l r); [contradiction|reflexivity]. }
        rewrite E. assert (Ev : ((z - T r r) * v)%C = s). { unfold v. transitivity (s * ((z - T r r) * cinv (z - T r r)))%C; [ring|rewrite cinv_r by exact Nr; ring]. }
        rewrite <- Ev. ring.
      + rewrite <- (Xe j) by lia. apply csum_ext. intros l Hl. destruct (Nat.eqb_spec l r) as [->|]; [|reflexivity]. rewrite (U j r Hn) by lia. ring. }
  destruct (B a (le_n a)) as (x & Xa & _ & Xe). exists x. split; [exists a; split; [exact Ha|rewrite Xa; intros E; apply c0_neq_c1; symmetry; exact E]|].
  intros j Hj. apply Xe; lia.
Qed.
Lemma spectrum_eig n A ev z : spectrum n A ev -> (In z ev <-> eigenvalue n A z).
Proof.
  intros (L & V & W & T & VW & WV & E & U & D). rewrite (eig_similar n A V W T z VW WV E). split.
  - intros I. destruct (In_nth ev z zeroC I) as (i & Hi & Ei). rewrite L in Hi. rewrite <- Ei, <- D by exact Hi. apply tri_diag_eig; assumption.
  - intros H. destruct (tri_eig_diag n T z U H) as (i & Hi & Ez). rewrite <- Ez, D by exact Hi. apply nth_In. rewrite L. exact Hi.
Qed.
Lemma one_eig n P : 0 < n -> stochastic n P -> eigenvalue n (cmat_of P) oneC.
Proof.
  intros Hn St. exists (fun _ => oneC). split; [exists 0; split; [exact Hn|intros E; apply c0_neq_c1; symmetry; exact E]|]. intros i Hi.
  transitivity (csum n (fun j => RtoC (real (mget P i j)))); [apply csum_ext; intros j _; unfold cmat_of; ring|].
  rewrite csum_R. assert (E : rsm n (fun j => real (mget P i j)) = 1%R) by (rewrite <- (real_sumn n (fun j => mget P i j)), <- real_1; f_equal; exact (proj2 (proj2 St) i Hi)). rewrite E. unfold oneC. apply cx_eq; cbn; ring.
Qed.
Lemma points_in n P ev z : 0 < n -> stochastic n P -> spectrum n (cmat_of P) ev -> (In z (plotted_points ev) <-> eigenvalue n (cmat_of P) z).
Proof.
  intros Hn St Sp. unfold plotted_points. rewrite nodup_In, in_app_iff, <- (spectrum_eig n _ ev z Sp). split; [|auto].
  intros [I|[<-|[]]]; [exact I|]. apply (spectrum_eig n _ ev _ Sp), one_eig; assumption.
Qed.
Lemma eig_disc n P ev z : stochastic n P -> spectrum n (cmat_of P) ev -> In z ev -> (cmod z <= 1)%R.
Proof.
  intros St Sp. apply (spectral_radius_lower n (cmat_of P) ev 1 Sp); [lra|]. exists 1%R. intros k i j Hi Hj. rewrite pow1, <- (kstep_cmpow n P k i j Hi Hj), cmod_R, <- real_abs.
  assert (B : (Qcabs (kstep n P k i j) <= 1)%Qc).
  { apply Qcabs_le. pose proof (kstep_nonneg n P k (proj1 (proj2 St)) i j Hi Hj) as K0. pose proof (sumn_term_le n (fun j => kstep n P k i j) j Hj (fun l Hl => kstep_nonneg n P k (proj1 (proj2 St)) i l Hi Hl)) as K1. cbn beta in K1. rewrite (kstep_sum n P k St i Hi) in K1. split; qclra. }
  apply Qc2R_le in B. rewrite Qc2R_1 in B. change (real (Qcabs (kstep n P k i j)) <= 1)%R in B. rewrite Rmult_1_r. exact B.
Qed.

(** ** The ring *)
Lemma gap_ring_slem m ev : gap_ring m ev = bind (is_ergodic m) (fun b => if b then match slem ev with Err _ => Ok None | Ok r => Ok r end else Ok None).
Proof.
  unfold gap_ring. destruct (is_ergodic m) as [b|]; cbn [bind]; [|reflexivity]. destruct b; [|reflexivity]. unfold slem, eigenvalues_sorted.
  destruct (forallb (fun x => iscloseR x 1) (rsort (map cmod ev))) eqn:F.
  - assert (E : filter (fun x => negb (iscloseR x 1)) (rsort (map cmod ev)) = []).
    { rewrite forallb_forall in F. induction (rsort (map cmod ev)) as [|x l IH]; [reflexivity|]. cbn [filter]. rewrite (F x (or_introl eq_refl)). cbn [negb]. apply IH. intros y Hy. apply F. right. exact Hy. }
    rewrite E. reflexivity.
  - destruct (filter (fun x => negb (iscloseR x 1)) (rsort (map cmod ev))) as [|x r] eqn:E; [|reflexivity]. exfalso.
    assert (G : forallb (fun x => iscloseR x 1) (rsort (map cmod ev)) = true); [|congruence].
    clear F. induction (rsort (map cmod ev)) as [|x l IH]; [reflexivity|]. cbn [filter forallb] in *. destruct (iscloseR x 1); cbn [negb andb] in *; [apply IH, E|discriminate].
Qed.
Lemma ring_gap m ev mu : gap_ring m ev = Ok (Some mu) <-> mc_slem m ev = Ok (Some mu).
Proof.
  rewrite gap_ring_slem. unfold mc_slem. destruct (is_ergodic m) as [[|]|]; cbn [bind]; try tauto. destruct (slem ev); split; congruence.
Qed.
Lemma ring_total n m ev : env_ok n m -> exists r, plot_eigenvalues_mc m ev = Ok (plotted_points ev, r).
Proof.
  intros Hm. unfold plot_eigenvalues_mc. rewrite gap_ring_slem. destruct (is_ergodic_spec n m Hm) as (b & E & _). rewrite E. cbn [bind].
  destruct b; [destruct (slem ev); cbn [bind]; eexists; reflexivity|]. cbn [bind]. eexists. reflexivity.
Qed.
Lemma eig_mc n m ev : env_ok n m -> spectrum n (cmat_of (en_p m)) ev ->
  exists points r, plot_eigenvalues_mc m ev = Ok (points, r) /\ NoDup points /\ (forall z, In z points <-> eigenvalue n (cmat_of (en_p m)) z) /\
    (forall z, In z points -> (cmod z <= 1)%R) /\ (~ ergodic n (en_p m) -> r = None) /\ (forall mu, r = Some mu <-> spectral_gap m ev = Ok (Some (1 - mu)%R)).
Proof.
  intros Hm Sp. pose proof Hm as (Hn & St & _). destruct (ring_total n m ev Hm) as (r & E). exists (plotted_points ev), r. split; [exact E|].
  assert (Er : gap_ring m ev = Ok r). { unfold plot_eigenvalues_mc in E. destruct (gap_ring m ev) as [r'|]; cbn [bind] in E; [congruence|discriminate]. }
  split; [apply NoDup_nodup|]. split; [intros z; apply points_in; [lia|exact St|exact Sp]|]. split; [|split].
  - intros z Hz. apply (points_in n (en_p m) ev z) in Hz; [|lia|exact St|exact Sp]. apply (eig_disc n (en_p m) ev z St Sp). apply (spectrum_eig n _ ev z Sp), Hz.
  - intros NE. rewrite gap_ring_slem, (not_ergodic_run n m Hm NE) in Er. cbn [bind] in Er. congruence.
  - intros mu. assert (X : r = Some mu <-> gap_ring m ev = Ok (Some mu)) by (rewrite Er; split; congruence). rewrite X, ring_gap. unfold spectral_gap.
    destruct (mc_slem m ev) as [[v|]|]; cbn [bind]; split; intros H; try discriminate; [congruence|]. assert (K : (1 - v = 1 - mu)%R) by congruence. do 2 f_equal. lra.
Qed.
Lemma eig_ring n m ev : env_ok n m -> ergodic n (en_p m) -> spectrum n (cmat_of (en_p m)) ev ->
  exists pi s points r, distribution n pi /\ stationary n (en_p m) pi /\ decay_rate n (en_p m) pi s /\ (s < 1)%R /\ plot_eigenvalues_mc m ev = Ok (points, r) /\
    ((s <= 1 / 100000000)%R -> r = None) /\ ((1 / 100000000 < s < 1 - 1001 / 100000000)%R -> r = Some s).
Proof.
  intros Hm Er Sp. destruct (gap_value n m ev Hm Er Sp) as (pi & s & D & S0 & Dr & L & A & B).
  destruct (eig_mc n m ev Hm Sp) as (points & r & E & _ & _ & _ & _ & G). exists pi, s, points, r. repeat (split; [assumption|]). split.
  - intros H. destruct r as [mu|]; [|reflexivity]. exfalso. destruct (proj1 (G mu) eq_refl). destruct (A H) as (A1 & _). pose proof (proj1 (G mu) eq_refl). congruence.
  - intros H. apply G. apply B, H.
Qed.
Lemma eig_slow_refuted : exists n m ev pi s mu points, env_ok n m /\ ergodic n (en_p m) /\ spectrum n (cmat_of (en_p m)) ev /\
  distribution n pi /\ stationary n (en_p m) pi /\ decay_rate n (en_p m) pi s /\ plot_eigenvalues_mc m ev = Ok (points, Some mu) /\ (100000 * (1 - s) < 1 - mu)%R.
Proof.
  destruct gap_refuted as (n & m & ev & pi & s & g & Hm & Er & Sp & D & S0 & Dr & E & L). destruct (eig_mc n m ev Hm Sp) as (points & r & Ep & _ & _ & _ & _ & G).
  exists n, m, ev, pi, s, (1 - g)%R, points. repeat (split; [assumption|]). split; [|replace (1 - (1 - g))%R with g by ring; exact L].
  rewrite Ep. assert (R0 : r = Some (1 - g)%R); [|rewrite R0; reflexivity]. apply G. rewrite E. do 2 f_equal. ring.
Qed.
(** ** Hidden Markov models *)
Lemma eig_hmm n k h nx ev : 2 <= n -> 0 < k -> stochastic n (h_p h) -> row_stochastic n k (h_e h) -> names_ok n (h_states h) -> nx_ok n (h_p h) nx ->
  plot_eigenvalues_hmm h nx ev = plot_eigenvalues_mc (mkenv (h_p h) (h_states h) nx true) ev /\ env_ok n (mkenv (h_p h) (h_states h) nx true).
Proof.
  intros Hn Hk St SE Ns Nx. unfold plot_eigenvalues_hmm. rewrite (float_array_ok n _ Hn St). cbn [bind]. rewrite (st_rows n _ St).
  assert (E : v_labels_input (PList (map PStr (h_states h))) (Some n) = Ok (h_states h)).
  { apply v_labels_input_iff. split; [reflexivity|]. rewrite (proj1 Ns). split; [exact Hn|]. split; [exact Ns|reflexivity]. }
  rewrite E. cbn [bind]. split; [reflexivity|]. split; [exact Hn|]. split; [exact St|]. split; [apply Ns|]. split; [apply Ns|exact Nx].
Qed.
Lemma eig_hmm_one n k h i h' nx ev : 1 < n -> 1 < k -> stochastic n (h_p h) -> row_stochastic n k (h_e h) -> restrict h (Some (SelOne i)) None = Ok h' -> plot_eigenvalues_hmm h' nx ev = Err ValueErr.
Proof.
  intros Hn Hk St SE R. pose proof (one_state_raises n k h i h' nx Hn Hk St SE R) as H. unfold hmm_is_ergodic in H. unfold plot_eigenvalues_hmm.
  destruct h as [P E states symbols]. cbn [h_p h_e] in *.
  destruct (restrict_ok n k P E states symbols (Some (SelOne i)) None h' Hn Hk St SE R ltac:(left; discriminate)) as (ss & sy & (_ & ->) & _ & _ & _ & S1 & _).
  unfold v_transition_matrix, float_array. cbn [extract_numeric a_kind kind_number bind a_shape a_at f_shape f_at].
  cbn [length] in S1. rewrite (st_rows 1 _ S1), (wf_ncols 1 1 _ (proj1 S1) ltac:(lia)). reflexivity.
Qed.
Lemma eig_none_refuted : exists n m ev pi s points, env_ok n m /\ ergodic n (en_p m) /\ spectrum n (cmat_of (en_p m)) ev /\
  distribution n pi /\ stationary n (en_p m) pi /\ decay_rate n (en_p m) pi s /\ (99 / 100 < s < 1)%R /\ plot_eigenvalues_mc m ev = Ok (points, None).
Proof.
  pose proof slower_ok as Hm. pose proof slower_ergodic as Er. pose proof Hm as (Hn & St & _).
  destruct (ergodic_pi 2 (env cSlower) Hm (proj1 Er)) as (pi & _ & D & S0 & _).
  destruct (second_rate 2 (ch_p cSlower) pi _ Hn St Er D S0 slower_spectrum) as (s & Se & Dr).
  assert (E : slem [oneC; RtoC (1 - 2 / 1000000)] = Err IndexErr).
  { apply slem_empty. cbn [map]. rewrite cmod_1, cmod_R, Rabs_pos_eq by lra. intros y [<-|[<-|[]]]; apply close_one; lra. }
  exists 2, (env cSlower), [oneC; RtoC (1 - 2 / 1000000)], pi, s, (plotted_points [oneC; RtoC (1 - 2 / 1000000)]).
  split; [exact Hm|]. split; [exact Er|]. split; [exact slower_spectrum|]. split; [exact D|]. split; [exact S0|]. split; [exact Dr|]. split.
  - destruct Se as (i0 & i1 & H0 & H1 & N & E0 & E1 & L & M). cbn [length] in *.
    assert (Ni : 1 <> i0). { intros X. subst i0. cbn [nth] in E0. apply (f_equal fst) in E0. cbn in E0. lra. }
    specialize (M 1 ltac:(lia) Ni). cbn [nth] in M. rewrite cmod_R, Rabs_pos_eq in M by lra. lra.
  - unfold plot_eigenvalues_mc. rewrite gap_ring_slem, (ergodic_run 2 _ Hm Er). cbn [bind]. rewrite E. reflexivity.
Qed.
Lemma eig_half : exists points, plot_eigenvalues_mc (env cHalf) [oneC; RtoC (/ 4)] = Ok (points, Some (/ 4)%R) /\ forall z, In z points <-> z = oneC \/ z = RtoC (/ 4).
Proof.
  destruct (eig_mc 2 (env cHalf) [oneC; RtoC (/ 4)] half_ok half_spectrum) as (points & r & E & _ & I & _ & _ & G). exists points. split.
  - rewrite E. assert (R0 : r = Some (/ 4)%R); [|rewrite R0; reflexivity]. apply G. rewrite half_gap. do 2 f_equal. lra.
  - intros z. rewrite I, <- (spectrum_eig 2 _ _ z half_spectrum). cbn [In]. split; intros H; [destruct H as [H|[H|[]]]; auto|destruct H; auto].
Qed.

(** Properties C89 and C90: the mixture that holeFillContextCoherent fits to the curvatures of a
    mesh, and the rigid alignment of two patches.  The vocabulary is in GmmSpec.v and IcpSpec.v. *)
From Coq Require Import Reals List ZArith Lra.
From Verif Require Import Num NumInst Vec GeomSpec MeasureM Tensor Gmm GmmSpec GmmP Icp IcpSpec IcpP IcpW.
Import ListNotations.
Local Open Scope R_scope.

(** ** C89: whatever the curvatures are, every iteration gives a mixture of three Gaussian
    densities, with the mean and the variance of the curvatures, which explains them no worse than
    the one before, and the patch radius is the number of edges that spans the middle mean. *)
Theorem C89_fit_partial : forall (k : nat) (xs : list R), Varied xs -> (1 <= k)%nat ->
  let th := em (N := NumR) k xs in
  length th = 3%nat /\ Proper th /\ mixture_mean th = mean xs /\ mixture_square th = mean (map (fun x => x ^ 2) xs) /\
  log_likelihood (em_start (N := NumR) (max_all (N := NumR) xs)) xs <= log_likelihood th xs /\
  forall a b, (forall x, In x xs -> a <= x <= b) -> forall c, In c th -> a < c_mu c < b.
Proof. exact em_all. Qed.
Print Assumptions C89_fit_partial.
Theorem C89_likelihood_partial : forall (k : nat) (xs : list R), Varied xs -> log_likelihood (em (N := NumR) k xs) xs <= log_likelihood (em (N := NumR) (S k) xs) xs.
Proof. exact em_fits. Qed.
Print Assumptions C89_likelihood_partial.
Theorem C89_radius_partial : forall (nceil : R -> Z) (avgLen : R) (xs : list R), Ceiling nceil -> 0 < avgLen -> Varied xs -> (forall x, In x xs -> 0 <= x) ->
  exists mu, 0 < mu < max_all (N := NumR) xs /\ (exists p v, nth_error (em (N := NumR) 20 xs) 1 = Some (@Cp NumR p mu v)) /\
   1 / (avgLen * mu) + 1 <= IZR (patch_radius (N := NumR) nceil avgLen xs) < 1 / (avgLen * mu) + 2 /\ (2 <= patch_radius (N := NumR) nceil avgLen xs)%Z.
Proof. exact radius_ok. Qed.
Print Assumptions C89_radius_partial.
(** Missing: curvatures that are all the same, as on a sphere.  After one iteration all three
    variances are zero, and the next one divides by them. *)
Theorem C89_fit_refuted : exists xs : list R, xs <> [] /\ (forall x, In x xs -> 0 <= x) /\ (forall c, In c (em (N := NumR) 1 xs) -> c_var c = 0) /\ ~ Proper (em (N := NumR) 1 xs).
Proof. exact equal_samples. Qed.
Print Assumptions C89_fit_refuted.
Example C89_case : Varied [0; 1; 1] /\ Ceiling up1.
Proof. exact fit_case. Qed.

(** ** C90: every point of the source patch is paired with the point of the target patch that has
    the closest signature, and the motion is a rotation and a translation with the least mean
    squared distance of the pairs.  The error should be that distance. *)
Theorem C90_motion_partial : forall svd (tgt src : list (feature NumR)), src <> [] ->
  match solveRigidICP (N := NumR) svd tgt src with
  | Some (Q, t, e) => exists l, Forall2 (Paired tgt) src l /\ (SvdOf (cross_covariance l) (svd (cross_covariance l)) ->
      Rotation Q /\ (forall Q' t', Rotation Q' -> misfit l Q t <= misfit l Q' t') /\ e = misfit l Q t + sqlen t)
  | None => exists s, In s src /\ forall g, In g tgt -> 10 ^ 20 <= sig_dist (snd s) (snd g)
  end.
Proof. exact icp_ok. Qed.
Print Assumptions C90_motion_partial.
Theorem C90_error_refuted : exists svd (tgt src : list (feature NumR)) l Q t e, solveRigidICP (N := NumR) svd tgt src = Some (Q, t, e) /\
  Forall2 (Paired tgt) src l /\ SvdOf (cross_covariance l) (svd (cross_covariance l)) /\ misfit l Q t = 0 /\ e = 1.
Proof. exact error_wrong. Qed.
Print Assumptions C90_error_refuted.
Example C90_case : exists svd (tgt src : list (feature NumR)) l, src <> [] /\ Forall2 (Paired tgt) src l /\ SvdOf (cross_covariance l) (svd (cross_covariance l)) /\
  exists p q, In p src /\ In q src /\ fst p <> fst q.
Proof. exact icp_case. Qed.

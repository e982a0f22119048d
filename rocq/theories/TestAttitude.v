(** The unit tests of /repo/test/AttitudeTest.cpp, proved of the model. *)
From Coq Require Import Reals List Lra.
From Verif Require Import Base BaseVec CheckNum TestBase ModelAttitude.
Import ListNotations.
Open Scope R_scope.

Definition zeros (n : nat) : VectorXd := repeat 0 n.
Definition zmx (r c : nat) : MatrixXd := MX r c (fun _ _ => 0).
Definition tol : R := 1 / 1000000.
Definition approx33 (r : MatrixXd) (e : mat3) (prec : R) : Prop :=
  mx_rows r = 3%nat /\ mx_cols r = 3%nat /\ isApprox (coeffs9 (mat3_of_MX r)) (coeffs9 e) prec.

(** 16-51 *)
Example dcm_quat_size : fails (computeDcmFromQuaternion (zeros 3) (zmx 4 4)).
Proof. reflexivity. Qed.
Example dcm_dcm_size : fails (computeDcmFromQuaternion (zeros 4) (zmx 3 4)) /\ fails (computeDcmFromQuaternion (zeros 4) (zmx 4 3)).
Proof. split; reflexivity. Qed.
(** 54-78; the old contents of the output do not matter. *)
Example dcm_result RA2B : mx_rows RA2B = 3%nat -> mx_cols RA2B = 3%nat ->
  passes (computeDcmFromQuaternion [0.275; 0.372; 0.583; 0.856] RA2B) (fun r => approx33 r
    (M3 (-0.667335077419064) 0.703037538258743 0.245768415882061
        (-0.028794513435833) (-0.354106917740399) 0.934761556122409
        0.744200759501148 0.616722393470093 0.256551591206202) tol).
Proof.
  intros E F. unfold passes, computeDcmFromQuaternion. rewrite E, F. cbn [Nat.eqb andb]. step. unfold dcm_entries.
  repeat step. split; auto. split; auto. split; auto. unfold tol. approx.
Qed.
(** 81-116 *)
Example quat_quat_size : fails (computeQuaternionFromDcm (zmx 4 4) (zeros 3)).
Proof. reflexivity. Qed.
Example quat_dcm_size : fails (computeQuaternionFromDcm (zmx 3 4) (zeros 4)) /\ fails (computeQuaternionFromDcm (zmx 4 3) (zeros 4)).
Proof. split; reflexivity. Qed.
Ltac qcase E := unfold passes, computeQuaternionFromDcm; rewrite E; cbn [Nat.eqb andb mx_rows mx_cols MX_of_mat3]; step; unfold quat_of_dcm;
  cbn [mat3_of_MX MX_of_mat3 mx_at m11 m12 m13 m21 m22 m23 m31 m32 m33];
  repeat step; split; [reflexivity|]; unfold tol; approx.
(** 119-140 *)
Example quat_case0 q : length q = 4%nat -> passes (computeQuaternionFromDcm (MX_of_mat3 m3id) q) (fun r => isApprox r [1; 0; 0; 0] tol).
Proof. intros E. unfold m3id. qcase E. Qed.
(** 143-167 *)
Example quat_case1 q : length q = 4%nat -> passes (computeQuaternionFromDcm
    (MX_of_mat3 (M3 0.667 0.703 0.245 (-0.028) (-0.354) 0.934 0.744 0.616 (-0.256))) q)
  (fun r => isApprox r [0.1053697; 0.7544866; 0.2236620; 0.3277063] tol).
Proof. intros E. qcase E. Qed.
(** 170-194 *)
Example quat_case2 q : length q = 4%nat -> passes (computeQuaternionFromDcm
    (MX_of_mat3 (M3 (-0.667) 0.703 0.245 (-0.028) 0.354 0.934 0.744 0.616 (-0.256))) q)
  (fun r => isApprox r [0.1653442; 0.2236620; 0.7544865; 0.5135943] tol).
Proof. intros E. qcase E. Qed.
(** 197-221 *)
Example quat_case3 q : length q = 4%nat -> passes (computeQuaternionFromDcm
    (MX_of_mat3 (M3 (-0.667) 0.703 0.245 (-0.028) (-0.354) 0.934 0.744 0.616 0.256)) q)
  (fun r => isApprox r [0.2422177; 0.3277063; 0.5135942; 0.7544866] tol).
Proof. intros E. qcase E. Qed.
(** 224-253 *)
Example rotvec_quat_size : fails (computeQuaternionFromRotationVec (zeros 3) (zeros 3)).
Proof. reflexivity. Qed.
Example rotvec_phi_size : fails (computeQuaternionFromRotationVec (zeros 4) (zeros 4)).
Proof. reflexivity. Qed.
(** 256-278 *)
Example rotvec_result q : length q = 4%nat -> passes (computeQuaternionFromRotationVec [0.384; 1.384; 4.291] q)
  (fun r => isApprox r [-0.637848847370359; 0.0653574088345108; 0.235558994341049; 0.730335003408557] tol).
Proof.
  intros E. unfold passes, computeQuaternionFromRotationVec. rewrite E. cbn [Nat.eqb]. step. unfold quat_of_rotvec.
  repeat step. split; [reflexivity|]. unfold tol. approx.
Qed.
(** 281-310; both tests make the same call. *)
Example phi_size : fails (computeRotationVecFromQuaternion (zeros 4) (zeros 4)).
Proof. reflexivity. Qed.
Ltac scalar := match goal with |- context [Rlt_dec ?x 0] =>
  first [let L := less x 0 in rewrite (if_t _ x 0 _ _ L) | let L := leq 0 x in rewrite (if_f _ x 0 _ _ L)] end.
(** 313-335 *)
Example phi_negative p : length p = 3%nat -> passes (computeRotationVecFromQuaternion [-0.638; 0.065; 0.235; 0.730] p)
  (fun r => isApprox r [0.1483501; 0.53634298; 1.666087] tol).
Proof.
  intros E. unfold passes, computeRotationVecFromQuaternion. rewrite E. cbn [Nat.eqb]. step. unfold rotvec_of_quat.
  cbn zeta. scalar. unfold norm, dot. cbn [vx vy vz]. repeat step. split; [reflexivity|]. unfold tol. approx.
Qed.
(** 338-360 *)
Example phi_zero p : length p = 3%nat -> passes (computeRotationVecFromQuaternion [1; 0; 0; 0] p)
  (fun r => isApprox r [0; 0; 0] tol).
Proof.
  intros E. unfold passes, computeRotationVecFromQuaternion. rewrite E. cbn [Nat.eqb]. step. unfold rotvec_of_quat.
  cbn zeta. scalar. unfold norm, dot. cbn [vx vy vz]. repeat step. split; [reflexivity|]. unfold tol. approx.
Qed.
(** 363-398 *)
Example equiv_quat_size : fails (buildQuaternionEquivalent (zeros 3) (zmx 4 4)).
Proof. reflexivity. Qed.
Example equiv_mat_size : fails (buildQuaternionEquivalent (zeros 4) (zmx 4 3)) /\ fails (buildQuaternionEquivalent (zeros 4) (zmx 3 4)).
Proof. split; reflexivity. Qed.
Definition coeffs16 (A : MatrixXd) : list R :=
  [mx_at A 0 0; mx_at A 0 1; mx_at A 0 2; mx_at A 0 3; mx_at A 1 0; mx_at A 1 1; mx_at A 1 2; mx_at A 1 3;
   mx_at A 2 0; mx_at A 2 1; mx_at A 2 2; mx_at A 2 3; mx_at A 3 0; mx_at A 3 1; mx_at A 3 2; mx_at A 3 3].
(** 401-425 *)
Example equiv_result QA2B : mx_rows QA2B = 4%nat -> mx_cols QA2B = 4%nat ->
  passes (buildQuaternionEquivalent [0.275; 0.372; 0.583; 0.856] QA2B) (fun r => mx_rows r = 4%nat /\ mx_cols r = 4%nat /\
    isApprox (coeffs16 r) [0.275; -0.372; -0.583; -0.856; 0.372; 0.275; -0.856; 0.583;
       0.583; 0.856; 0.275; -0.372; 0.856; -0.583; 0.372; 0.275] tol).
Proof.
  intros E F. unfold passes, buildQuaternionEquivalent. rewrite E, F. cbn [Nat.eqb andb]. step. split; auto. split; auto. split; auto.
  unfold coeffs16, quat_equiv, tol. cbn [mx_at]. approx.
Qed.
(** 428-453 *)
Example euler_result : fst (euler2Dcm (V3 0.349 0.125 2.094)) = true /\
  isApprox (coeffs9 (snd (euler2Dcm (V3 0.349 0.125 2.094))))
    (coeffs9 (M3 (-0.49575929590605) 0.85946432815914 (-0.124674733385228)
        (-0.83530495080520) (-0.43260583128062) 0.339290191285157
        0.23767279962808 0.27234768837635 0.932383170672339)) tol.
Proof.
  split; [reflexivity|]. unfold euler2Dcm, mmul, euler_R1, euler_R2, euler_R3, tol. cbn [snd vx vy vz m11 m12 m13 m21 m22 m23 m31 m32 m33]. approx.
Qed.
(** 456-482 *)
Ltac stop := unfold fails, dcm2Euler; cbn [m11 m12 m13 m21 m22 m23 m31 m32 m33]; repeat step; reflexivity.
Example euler_singular e :
  fails (dcm2Euler (M3 0 0.85946432815914 (-0.124674733385228) (-0.83530495080520) (-0.43260583128062) 0.339290191285157
                       0.23767279962808 0.27234768837635 0.932383170672339) e) /\
  fails (dcm2Euler (M3 (-0.49575929590605) 0.85946432815914 (-0.124674733385228) (-0.83530495080520) (-0.43260583128062) 0.339290191285157
                       0.23767279962808 0.27234768837635 0) e).
Proof. split; stop. Qed.
(** 485-511 *)
Example euler_domain e :
  fails (dcm2Euler (M3 (-0.49575929590605) 0.85946432815914 1.124674733385228 (-0.83530495080520) (-0.43260583128062) 0.339290191285157
                       0.23767279962808 0.27234768837635 0.932383170672339) e) /\
  fails (dcm2Euler (M3 (-0.49575929590605) 0.85946432815914 (-1.124674733385228) (-0.83530495080520) (-0.43260583128062) 0.339290191285157
                       0.23767279962808 0.27234768837635 0.932383170672339) e).
Proof. split; stop. Qed.
(** 514-538 *)
Example euler_back e :
  passes (dcm2Euler (M3 (-0.49575929590605) 0.85946432815914 (-0.124674733385228)
        (-0.83530495080520) (-0.43260583128062) 0.339290191285157
        0.23767279962808 0.27234768837635 0.932383170672339) e)
    (fun r => isApprox (coeffs3 r) [0.349; 0.125; 2.094] (1 / 1000)).
Proof.
  unfold passes, dcm2Euler. cbn [m11 m12 m13 m21 m22 m23 m31 m32 m33]. repeat step. split; [reflexivity|]. approx.
Qed.

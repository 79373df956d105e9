(** The checks of the unit tests in /repo/test, made on the model: tests of the model, not proofs.  Every REQUIRE of
    access.cpp, resource_user.cpp and of the case IOResource of resource.cpp is here, in the order of the files (114
    checks).  Left out: the case Resource ID of resource.cpp (a policy type of its own, not in [ty]); task_space.cpp and
    chunked_list.cpp are commented out in the repository; cv.cpp, scheduler.cpp and random_graph.cpp run threads (C43, C71, the models
    of whole executions). *)
From Coq Require Import Bool List Arith NArith.
From Verif Require Import AccessModel UserModel.
Import ListNotations.

(** test/access.cpp:11-53, 32 checks *)
Example T_IOAccess : forallb id [
  eqb (is_serial TIO MRead MRead) false;
  eqb (is_serial TIO MRead MWrite) true;
  eqb (is_serial TIO MRead MAadd) true;
  eqb (is_serial TIO MRead MAmul) true;
  eqb (is_serial TIO MWrite MRead) true;
  eqb (is_serial TIO MWrite MWrite) true;
  eqb (is_serial TIO MWrite MAadd) true;
  eqb (is_serial TIO MWrite MAmul) true;
  eqb (is_serial TIO MAadd MRead) true;
  eqb (is_serial TIO MAadd MWrite) true;
  eqb (is_serial TIO MAadd MAadd) false;
  eqb (is_serial TIO MAadd MAmul) true;
  eqb (is_serial TIO MAmul MRead) true;
  eqb (is_serial TIO MAmul MWrite) true;
  eqb (is_serial TIO MAmul MAadd) true;
  eqb (is_serial TIO MAmul MAmul) false;
  eqb (is_superset TIO MRead MRead) true;
  eqb (is_superset TIO MRead MWrite) false;
  eqb (is_superset TIO MRead MAadd) false;
  eqb (is_superset TIO MRead MAmul) false;
  eqb (is_superset TIO MWrite MRead) true;
  eqb (is_superset TIO MWrite MWrite) true;
  eqb (is_superset TIO MWrite MAadd) true;
  eqb (is_superset TIO MWrite MAmul) true;
  eqb (is_superset TIO MAadd MRead) false;
  eqb (is_superset TIO MAadd MWrite) false;
  eqb (is_superset TIO MAadd MAadd) true;
  eqb (is_superset TIO MAadd MAmul) false;
  eqb (is_superset TIO MAmul MRead) false;
  eqb (is_superset TIO MAmul MWrite) false;
  eqb (is_superset TIO MAmul MAadd) false;
  eqb (is_superset TIO MAmul MAmul) true] = true.
Proof. vm_compute. reflexivity. Qed.

(** test/access.cpp:55-77, 12 checks *)
Example T_AreaAccess : forallb id [
  eqb (is_serial TArea (10%N, 20%N) (30%N, 40%N)) false;
  eqb (is_superset TArea (10%N, 20%N) (30%N, 40%N)) false;
  eqb (is_serial TArea (30%N, 40%N) (10%N, 20%N)) false;
  eqb (is_superset TArea (30%N, 40%N) (10%N, 20%N)) false;
  eqb (is_serial TArea (10%N, 20%N) (15%N, 25%N)) true;
  eqb (is_superset TArea (10%N, 20%N) (15%N, 25%N)) false;
  eqb (is_serial TArea (15%N, 25%N) (10%N, 20%N)) true;
  eqb (is_superset TArea (15%N, 15%N) (10%N, 20%N)) false;
  eqb (is_serial TArea (10%N, 30%N) (15%N, 25%N)) true;
  eqb (is_superset TArea (10%N, 30%N) (15%N, 25%N)) true;
  eqb (is_serial TArea (15%N, 25%N) (10%N, 30%N)) true;
  eqb (is_superset TArea (15%N, 25%N) (10%N, 30%N)) false] = true.
Proof. vm_compute. reflexivity. Qed.

(** test/access.cpp:79-136, 9 checks *)
Example T_CombineAccess : forallb id [
  eqb (is_serial (TComb TIO TArea CAnd) (MRead, (10%N, 20%N)) (MRead, (15%N, 25%N))) false;
  eqb (is_serial (TComb TIO TArea CAnd) (MRead, (10%N, 20%N)) (MWrite, (15%N, 25%N))) true;
  eqb (is_serial (TComb TIO TArea CAnd) (MRead, (10%N, 20%N)) (MWrite, (30%N, 40%N))) false;
  eqb (is_superset (TComb TIO TArea CAnd) (MRead, (10%N, 20%N)) (MRead, (15%N, 25%N))) false;
  eqb (is_superset (TComb TIO TArea CAnd) (MWrite, (10%N, 30%N)) (MRead, (15%N, 25%N))) true;
  eqb (is_serial (TComb TIO TArea COr) (MRead, (10%N, 20%N)) (MRead, (30%N, 40%N))) false;
  eqb (is_serial (TComb TIO TArea COr) (MRead, (10%N, 20%N)) (MRead, (15%N, 25%N))) true;
  eqb (is_serial (TComb TIO TArea COr) (MRead, (10%N, 20%N)) (MWrite, (15%N, 25%N))) true;
  eqb (is_serial (TComb TIO TArea COr) (MRead, (10%N, 20%N)) (MWrite, (30%N, 40%N))) true] = true.
Proof. vm_compute. reflexivity. Qed.

(** test/access.cpp:138-190, 8 checks *)
Example T_ArrayAccess : forallb id [
  eqb (is_serial (TArr TIO 2 CAnd) (MRead, (MRead, (tt))) (MRead, (MRead, (tt)))) false;
  eqb (is_serial (TArr TIO 2 CAnd) (MRead, (MWrite, (tt))) (MRead, (MRead, (tt)))) false;
  eqb (is_serial (TArr TIO 2 CAnd) (MWrite, (MWrite, (tt))) (MRead, (MRead, (tt)))) true;
  eqb (is_superset (TArr TIO 2 CAnd) (MRead, (MWrite, (tt))) (MRead, (MRead, (tt)))) true;
  eqb (is_superset (TArr TIO 2 CAnd) (MRead, (MWrite, (tt))) (MWrite, (MRead, (tt)))) false;
  eqb (is_serial (TArr TIO 2 COr) (MRead, (MRead, (tt))) (MRead, (MRead, (tt)))) false;
  eqb (is_serial (TArr TIO 2 COr) (MRead, (MWrite, (tt))) (MRead, (MRead, (tt)))) true;
  eqb (is_serial (TArr TIO 2 COr) (MWrite, (MWrite, (tt))) (MRead, (MRead, (tt)))) true] = true.
Proof. vm_compute. reflexivity. Qed.

(** test/access.cpp:192-214, 2 checks *)
Example T_FieldAccess : forallb id [
  eqb (is_serial (field_ty 3) ( MRead, ((0%N, 10%N), ((0%N, 10%N), ((0%N, 10%N), (tt))))) ( MRead, ((0%N, 10%N), ((0%N, 10%N), ((0%N, 10%N), (tt)))))) false;
  eqb (is_serial (field_ty 3) ( MWrite, ((0%N, 10%N), ((0%N, 10%N), ((0%N, 10%N), (tt))))) ( MRead, ((0%N, 10%N), ((0%N, 10%N), ((0%N, 10%N), (tt)))))) true] = true.
Proof. vm_compute. reflexivity. Qed.

(** test/resource.cpp: IOResource<int> a, b; two resources made at depth 0 (line 67) *)
Definition res_a := mkRes 0 0.
(** test/resource.cpp:67 *)
Definition res_b := mkRes 1 0.
(** test/resource.cpp:64-90, 16 checks *)
Example T_IOResource : forallb id [
  eqb (ra_is_serial (mkAcc res_a TIO MRead) (mkAcc res_a TIO MRead)) false;
  eqb (ra_is_serial (mkAcc res_a TIO MRead) (mkAcc res_a TIO MWrite)) true;
  eqb (ra_is_serial (mkAcc res_a TIO MWrite) (mkAcc res_a TIO MRead)) true;
  eqb (ra_is_serial (mkAcc res_a TIO MWrite) (mkAcc res_a TIO MWrite)) true;
  eqb (ra_is_serial (mkAcc res_b TIO MRead) (mkAcc res_b TIO MRead)) false;
  eqb (ra_is_serial (mkAcc res_b TIO MRead) (mkAcc res_b TIO MWrite)) true;
  eqb (ra_is_serial (mkAcc res_b TIO MWrite) (mkAcc res_b TIO MRead)) true;
  eqb (ra_is_serial (mkAcc res_b TIO MWrite) (mkAcc res_b TIO MWrite)) true;
  eqb (ra_is_serial (mkAcc res_a TIO MRead) (mkAcc res_b TIO MRead)) false;
  eqb (ra_is_serial (mkAcc res_a TIO MRead) (mkAcc res_b TIO MWrite)) false;
  eqb (ra_is_serial (mkAcc res_a TIO MWrite) (mkAcc res_b TIO MRead)) false;
  eqb (ra_is_serial (mkAcc res_a TIO MWrite) (mkAcc res_b TIO MWrite)) false;
  eqb (ra_is_serial (mkAcc res_b TIO MRead) (mkAcc res_a TIO MRead)) false;
  eqb (ra_is_serial (mkAcc res_b TIO MRead) (mkAcc res_a TIO MWrite)) false;
  eqb (ra_is_serial (mkAcc res_b TIO MWrite) (mkAcc res_a TIO MRead)) false;
  eqb (ra_is_serial (mkAcc res_b TIO MWrite) (mkAcc res_a TIO MWrite)) false] = true.
Proof. vm_compute. reflexivity. Qed.

(** test/resource_user.cpp:14; the constructor is resource_user.cpp:29-36 *)
Definition user_f1 := fold_left add_resource_access [mkAcc res_a TIO MRead] (new_user 0).
(** test/resource_user.cpp:15; the constructor is resource_user.cpp:29-36 *)
Definition user_f2 := fold_left add_resource_access [mkAcc res_a TIO MRead; mkAcc res_a TIO MWrite] (new_user 0).
(** test/resource_user.cpp:16; the constructor is resource_user.cpp:29-36 *)
Definition user_f3 := fold_left add_resource_access [mkAcc res_b TIO MRead] (new_user 0).
(** test/resource_user.cpp:17; the constructor is resource_user.cpp:29-36 *)
Definition user_f4 := fold_left add_resource_access [mkAcc res_b TIO MRead; mkAcc res_b TIO MWrite] (new_user 0).
(** test/resource_user.cpp:18; the constructor is resource_user.cpp:29-36 *)
Definition user_f5 := fold_left add_resource_access [mkAcc res_a TIO MRead; mkAcc res_a TIO MWrite; mkAcc res_b TIO MRead; mkAcc res_b TIO MWrite] (new_user 0).
(** test/resource_user.cpp:8-64, 35 checks *)
Example T_ResourceUser : forallb id [
  eqb (user_is_serial user_f1 user_f1) false;
  eqb (user_is_serial user_f1 user_f2) true;
  eqb (user_is_serial user_f1 user_f3) false;
  eqb (user_is_serial user_f1 user_f4) false;
  eqb (user_is_serial user_f1 user_f5) true;
  eqb (user_is_serial user_f2 user_f1) true;
  eqb (user_is_serial user_f2 user_f2) true;
  eqb (user_is_serial user_f2 user_f3) false;
  eqb (user_is_serial user_f2 user_f4) false;
  eqb (user_is_serial user_f2 user_f5) true;
  eqb (user_is_serial user_f3 user_f1) false;
  eqb (user_is_serial user_f3 user_f2) false;
  eqb (user_is_serial user_f3 user_f3) false;
  eqb (user_is_serial user_f3 user_f4) true;
  eqb (user_is_serial user_f3 user_f5) true;
  eqb (user_is_serial user_f4 user_f1) false;
  eqb (user_is_serial user_f4 user_f2) false;
  eqb (user_is_serial user_f4 user_f3) true;
  eqb (user_is_serial user_f4 user_f4) true;
  eqb (user_is_serial user_f4 user_f5) true;
  eqb (user_is_serial user_f5 user_f1) true;
  eqb (user_is_serial user_f5 user_f2) true;
  eqb (user_is_serial user_f5 user_f3) true;
  eqb (user_is_serial user_f5 user_f4) true;
  eqb (user_is_serial user_f5 user_f5) true;
  eqb (user_is_superset_of user_f1 user_f1) true;
  eqb (user_is_superset_of user_f1 user_f2) false;
  eqb (user_is_superset_of user_f1 user_f3) false;
  eqb (user_is_superset_of user_f1 user_f4) false;
  eqb (user_is_superset_of user_f1 user_f5) false;
  eqb (user_is_superset_of user_f2 user_f1) true;
  eqb (user_is_superset_of user_f2 user_f2) true;
  eqb (user_is_superset_of user_f2 user_f3) false;
  eqb (user_is_superset_of user_f2 user_f4) false;
  eqb (user_is_superset_of user_f2 user_f5) false] = true.
Proof. vm_compute. reflexivity. Qed.

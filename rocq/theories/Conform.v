(** * Conform: GENERATED by tools/gen_conform.py -- do not edit.
    Expectations of the project's own tests (/repo/tests), evaluated in the plain model.  These are
    tests of the fidelity of the model, not proofs of properties. *)
From Coq Require Import List String ZArith QArith.
From Verif Require Import Expr ConformDefs.
Import ListNotations. Open Scope string_scope. Open Scope list_scope. Open Scope Z_scope.

Definition test_exprs_defaults : list chk := [
  Strict (SumL []) (N (0) 1);
  Strict (ProdL []) (N (1) 1);
  Strict (A (V "x") (N (2) 1)) (A (N (2) 1) (V "x"));
  Strict (M (V "x") (V "y")) (M (V "y") (V "x"));
  Strict (M (V "x") (N (0) 1)) (N (0) 1);
  Strict (M (V "x") (N (2) 1)) (M (N (2) 1) (V "x"));
  Strict (P (V "x") (N (2) 1)) (M (V "x") (V "x"));
  Strict (S (M (V "x") (N (2) 1)) (M (N (2) 1) (V "x"))) (N (0) 1);
  Strict (S (P (A (V "x") (N (1) 1)) (N (2) 1)) (M (A (V "x") (N (1) 1)) (A (V "x") (N (1) 1)))) (N (0) 1);
  Strict (A (V "x") (V "x")) (M (N (2) 1) (V "x"));
  Strict (A (A (V "x") (V "x")) (V "x")) (M (N (3) 1) (V "x"));
  Strict (A (M (N (3) 1) (A (V "x") (N (2) 1))) (M (N (2) 1) (A (V "x") (N (2) 1)))) (M (N (5) 1) (A (V "x") (N (2) 1)));
  Strict (A (M (M (N (2) 1) (V "x")) (V "y")) (M (M (N (3) 1) (V "x")) (V "y"))) (M (M (N (5) 1) (V "x")) (V "y"));
  Strict (S (M (N (3) 1) (V "x")) (M (N (2) 1) (V "x"))) (V "x");
  Strict (P (V "x") (N (3) 1)) (M (M (V "x") (V "x")) (V "x"));
  Strict (D (M (M (N (2) 1) (T Sin (V "x"))) (P (T Cos (V "x")) (N (2) 1))) (M (T Sin (V "x")) (P (T Cos (V "x")) (N (2) 1)))) (N (2) 1);
  Strict (P (V "x") (N (0) 1)) (N (1) 1);
  Strict (P (V "x") (N (1) 1)) (V "x");
  Strict (P (N (2) 1) (N (2) 1)) (N (4) 1);
  Strict (P (N (4) 1) (N 1 2)) (N (2) 1);
  Strict (P (P (V "x") (N 1 2)) (N (2) 1)) (V "x");
  Strict (D (N (2) 1) (P (N (2) 1) (N 1 2))) (P (N (2) 1) (N 1 2));
  Expandable (D (V "x") (A (V "x") (N (2) 1))) false;
  Expandable (D (A (V "x") (N (2) 1)) (V "x")) true;
  Expandable (L (M (V "x") (A (V "x") (N (2) 1)))) true;
  Expandable (M (L (M (V "x") (A (V "x") (N (2) 1)))) (N (3) 1)) true;
  Expandable (D (V "y") (M (V "x") (A (V "x") (N (6) 1)))) true;
  Strict (Exp (D (N (1) 1) (M (V "x") (A (V "x") (N (6) 1))))) (D (N (1) 1) (A (P (V "x") (N (2) 1)) (M (V "x") (N (6) 1))));
  Strict (Exp (D (V "y") (M (V "x") (A (V "x") (N (6) 1))))) (D (V "y") (A (P (V "x") (N (2) 1)) (M (V "x") (N (6) 1))));
  Strict (Exp (D (A (N (2) 1) (V "x")) (T Sin (V "x")))) (A (D (N (2) 1) (T Sin (V "x"))) (D (V "x") (T Sin (V "x"))));
  Expandable (A (S (P (A (T Cos (M (N (2) 1) (V "x"))) (N (1) 1)) (N (2) 1)) (D (N (8) 1) (M (N (3) 1) (P (A (T Cos (M (N (2) 1) (V "x"))) (N (1) 1)) (N (3) 1))))) (D (N (2) 1) (P (A (T Cos (M (N (2) 1) (V "x"))) (N (1) 1)) (N (-4) 1)))) true;
  Strict (A (V "x") (A (N (2) 1) (V "y"))) (A (A (V "x") (N (2) 1)) (V "y"));
  Count (N (2) 1) "x" 0;
  Count (S (P (T Tan (A (V "x") (N (1) 1))) (N (2) 1)) (M (N (2) 1) (V "x"))) "x" 2;
  Nest (P (V "x") (N (2) 1)) "x" 2;
  Nest (M (V "x") (P (V "y") (N (2) 1))) "x" 2;
  Nest (M (V "x") (M (D (N (1) 1) (P (V "y") (N (2) 1))) (N (3) 1))) "x" 2].
Example test_exprs_defaults_ok : forallb passes test_exprs_defaults = true.
Proof. vm_compute. reflexivity. Qed.

Definition test_exprs_repr : list chk := [
  Repr (S (N (1) 1) (P (V "x") (N (2) 1))) "-x^2 + 1";
  Repr (S (V "x") (N (2) 1)) "x - 2";
  Repr (M (N (2) 1) (V "x")) "2*x";
  Repr (M (N (2) 1) (A (N (2) 1) (V "x"))) "2*(x + 2)";
  Repr (D (N (2) 1) (A (N (2) 1) (V "x"))) "2/(x + 2)";
  Repr (M (N (2) 1) (P (A (N (2) 1) (V "x")) (N (-2) 1))) "2/(x + 2)^2";
  Repr (D (N (2) 1) (P (A (N (2) 1) (V "x")) (N (2) 1))) "2/(x + 2)^2";
  Repr (P (N (-1) 1) (N (1) 4)) "(-1)^(1/4)";
  Repr (P (N (3) 1) (N 1 2)) "sqrt(3)";
  Repr (D (N (1) 1) (P (S (N (1) 1) (P (V "x") (N (2) 1))) (N 1 2))) "1/sqrt(-x^2 + 1)";
  Repr (P (D (N (1) 1) (V "x")) (N 1 2)) "1/sqrt(x)";
  Repr (P (V "x") (N (-1) 2)) "1/sqrt(x)";
  Repr (D (T Sin (V "x")) (M (N (2) 1) (V "x"))) "sin(x)/(2*x)";
  Repr (D (V "x") (N (2) 1)) "x/2";
  Repr (M (V "x") (N (1) 2)) "x/2";
  Repr (S (N (3) 1) (M (N (2) 1) (V "x"))) "-2*x + 3";
  Repr (S (A (A (A (D (M (N (3) 1) (P (V "x") (N (4) 1))) (N (2) 1)) (P (V "x") (N (5) 1))) (M (N (2) 1) (V "x"))) (N (3) 1)) (P (V "x") (N (2) 1))) "x^5 + 3*x^4/2 - x^2 + 2*x + 3";
  Repr (A (N (2) 1) (L (N (2) 1))) "ln(2) + 2";
  Repr (S (A (L (N (4) 1)) (N (9) 16)) (L (N (2) 1))) "-ln(2) + ln(4) + 9/16";
  Repr (M (P (N (2) 3) (N (2) 3)) (N (-1) 1)) "-(2/3)^(2/3)";
  Repr (M (K EPi) (N (2) 1)) "2*pi";
  Repr (M (K EPi) (N (-2) 1)) "-2*pi"].
Example test_exprs_repr_ok : forallb passes test_exprs_repr = true.
Proof. vm_compute. reflexivity. Qed.

Definition test_exprs_factor : list chk := [
  Strict (Fac (A (M (N (6) 1) (V "x")) (P (V "x") (N (2) 1)))) (M (V "x") (A (V "x") (N (6) 1)));
  Strict (Fac (S (S (D (M (V "c_3") (V "r_3")) (M (P (V "a") (N 1 2)) (P (V "b") (N 1 2)))) (D (M (P (V "c_3") (N (2) 1)) (P (V "r_3") (N (2) 1))) (M (M (M (V "c_4") (V "r_4")) (P (V "b") (N 1 2))) (P (V "a") (N (3) 2))))) (D (M (V "c_4") (V "r_4")) (M (P (V "a") (N 1 2)) (P (V "b") (N (3) 2)))))) (M (D (N (1) 1) (M (P (V "a") (N 1 2)) (P (V "b") (N 1 2)))) (S (S (M (V "c_3") (V "r_3")) (D (M (P (V "c_3") (N (2) 1)) (P (V "r_3") (N (2) 1))) (M (M (V "c_4") (V "r_4")) (V "a")))) (D (M (V "c_4") (V "r_4")) (V "b"))));
  Strict (Fac (S (N (2) 1) (M (N (2) 1) (V "x")))) (M (N (2) 1) (S (N (1) 1) (V "x")))].
Example test_exprs_factor_ok : forallb passes test_exprs_factor = true.
Proof. vm_compute. reflexivity. Qed.

Definition test_exprs_power : list chk := [
  Strict (Pw (N (3) 4) (N (1) 2)) (ProdL [(Pw (N (3) 1) (N (1) 2));(N (1) 2)]);
  Strict (Pw (N (4) 3) (N (1) 2)) (ProdL [(N (2) 1);(Pw (N (3) 1) (N (-1) 2))]);
  Strict (Pw (N (3) 4) (N (-1) 2)) (ProdL [(Pw (N (3) 1) (N (-1) 2));(N (2) 1)]);
  Strict (Pw (N (4) 3) (N (-1) 2)) (ProdL [(N (1) 2);(Pw (N (3) 1) (N (1) 2))]);
  Strict (Pw (N (-8) 3) (N (1) 3)) (ProdL [(N (-2) 1);(Pw (N (3) 1) (N (-1) 3))]);
  Strict (Pw (N (-8) 3) (N (-1) 3)) (ProdL [(N (-1) 2);(Pw (N (3) 1) (N (1) 3))]);
  Strict (Pw (N (1) 36) (N (-1) 2)) (N (6) 1);
  Strict (Pw (N (36) 1) (N (-1) 2)) (N (1) 6);
  Strict (Pw (N (36) 1) (N (1) 2)) (N (6) 1);
  Strict (Pw (N (1) 36) (N (1) 2)) (N (1) 6);
  Strict (Pw (Pw (N (2) 1) (N (1) 2)) (N (-1) 1)) (Pw (N (2) 1) (N (-1) 2));
  Strict (P (N (5) 3) (N (1) 2)) (P (N (3) 5) (N (-1) 2));
  Strict (P (N (3) 5) (N (1) 2)) (P (N (5) 3) (N (-1) 2));
  Repr (Pw (N (1) 2) (N (-1) 2)) "sqrt(2)";
  Strict (Pw (N (1) 2) (N (-1) 2)) (Pw (N (2) 1) (N (1) 2));
  Repr (Pw (N (1) 2) (N (-1) 7)) "2^(1/7)";
  Repr (Pw (N (1) 7) (N (-1) 7)) "7^(1/7)";
  Repr (Pw (N (1) 3) (N (1) 7)) "1/3^(1/7)";
  Repr (Pw (N (3) 1) (N (-1) 7)) "1/3^(1/7)";
  Strict (Pw (N (1) 3) (N (1) 7)) (Pw (N (3) 1) (N (-1) 7))].
Example test_exprs_power_ok : forallb passes test_exprs_power = true.
Proof. vm_compute. reflexivity. Qed.

Definition test_exprs_special : list chk := [
  Strict (L (N (1) 1)) (N (0) 1);
  Strict (L (P (K EE) (V "x"))) (V "x");
  Strict (T Sin (M (N (3) 1) (K EPi))) (N (0) 1);
  Strict (T Cos (M (N (5) 1) (K EPi))) (N (-1) 1);
  Strict (T Csc (D (K EPi) (N (2) 1))) (N (1) 1);
  Strict (T Cot (D (K EPi) (N (4) 1))) (N (1) 1);
  Strict (T Cos (Ng (V "x"))) (T Cos (V "x"));
  Strict (T Sin (Ng (V "x"))) (Ng (T Sin (V "x")));
  Strict (T Tan (Ng (V "x"))) (Ng (T Tan (V "x")));
  Strict (T Sin (T Acos (A (V "x") (V "y")))) (P (S (N (1) 1) (P (A (V "x") (V "y")) (N (2) 1))) (N 1 2));
  Strict (T Csc (T Acos (A (V "x") (V "y")))) (D (N (1) 1) (P (S (N (1) 1) (P (A (V "x") (V "y")) (N (2) 1))) (N 1 2)));
  Strict (T Sec (T Acos (A (V "x") (V "y")))) (D (N (1) 1) (A (V "x") (V "y")));
  Strict (T Atan (T Cot (A (M (N (3) 1) (V "x")) (N (2) 1)))) (D (N (1) 1) (A (M (N (3) 1) (V "x")) (N (2) 1)));
  Strict (T Cos (A (V "x") (M (N (2) 1) (K EPi)))) (T Cos (V "x"));
  Strict (T Sin (A (A (V "x") (P (K EE) (V "y"))) (M (N (4) 1) (K EPi)))) (T Sin (A (V "x") (P (K EE) (V "y"))));
  Strict (T Tan (A (V "x") (K EPi))) (T Tan (V "x"));
  Strict (T Cos (S (Ng (V "x")) (N (2) 1))) (T Cos (A (V "x") (N (2) 1)));
  IsSub (V "x") false;
  IsSub (Ng (V "x")) true;
  IsSub (N (0) 1) false;
  IsSub (N (-2) 1) true;
  IsSub (P (K EE) (V "x")) false;
  IsSub (Ng (P (K EE) (Ng (V "x")))) true;
  IsSub (P (N (-3) 1) (N (3) 1)) true;
  IsSub (P (N (-3) 2) (N (1) 3)) true;
  IsSub (P (N (-3) 2) (N (-2) 3)) true;
  IsSub (P (N (-3) 2) (N (1) 2)) false;
  Strict (P (P (V "x") (N (2) 1)) (N 1 2)) (Ab (V "x"));
  Strict (P (P (V "x") (N (6) 1)) (N (1) 6)) (Ab (V "x"));
  Strict (P (P (V "x") (N (3) 1)) (N (1) 3)) (V "x")].
Example test_exprs_special_ok : forallb passes test_exprs_special = true.
Proof. vm_compute. reflexivity. Qed.

Definition test_expand_power : list chk := [
  Strict (Exp (P (A (P (V "x") (N (3) 1)) (N (1) 1)) (N (6) 1))) (Exp (ProdL [(SumL [(P (V "x") (N (3) 1));(N (1) 1)]);(SumL [(P (V "x") (N (3) 1));(N (1) 1)]);(SumL [(P (V "x") (N (3) 1));(N (1) 1)]);(SumL [(P (V "x") (N (3) 1));(N (1) 1)]);(SumL [(P (V "x") (N (3) 1));(N (1) 1)]);(SumL [(P (V "x") (N (3) 1));(N (1) 1)])]))].
Example test_expand_power_ok : forallb passes test_expand_power = true.
Proof. vm_compute. reflexivity. Qed.

Definition test_derivatives : list chk := [
  Value (Df (P (N (2) 1) (V "x")) "x") (M (L (N (2) 1)) (P (N (2) 1) (V "x")));
  Value (Df (P (V "x") (N (7) 1)) "x") (M (N (7) 1) (P (V "x") (N (6) 1)));
  Value (Df (L (V "x")) "x") (D (N (1) 1) (V "x"));
  Strict (Sb (Df (T Cot (V "x")) "x") [("x", (D (M (N (5) 1) (K EPi)) (N (3) 1)))]) (N (-4) 3);
  Strict (Sb (Df (T Sec (V "x")) "x") [("x", (N (0) 1))]) (N (0) 1);
  Strict (Sb (Df (T Tan (V "x")) "x") [("x", (D (M (N (2) 1) (K EPi)) (N (3) 1)))]) (N (4) 1);
  Strict (Sb (Df (T Sec (V "x")) "x") [("x", (D (M (N (11) 1) (K EPi)) (N (6) 1)))]) (N (-2) 3);
  Strict (Sb (Df (T Csc (V "x")) "x") [("x", (D (K EPi) (N (2) 1)))]) (N (0) 1);
  Strict (Sb (Df (T Csc (V "x")) "x") [("x", (D (M (N (3) 1) (K EPi)) (N (4) 1)))]) (P (N (2) 1) (N 1 2));
  Value (Df (S (S (M (N (-4) 1) (P (K EE) (V "x"))) (T Sin (V "x"))) (N (9) 1)) "x") (S (M (N (-4) 1) (P (K EE) (V "x"))) (T Cos (V "x")));
  Value (Df (S (M (N (-4) 1) (P (V "x") (N (3) 1))) (T Sin (V "x"))) "x") (S (Ng (T Cos (V "x"))) (M (N (12) 1) (P (V "x") (N (2) 1))));
  Value (Df (M (P (V "x") (N 1 2)) (P (K EE) (V "x"))) "x") (A (D (P (K EE) (V "x")) (M (N (2) 1) (P (V "x") (N 1 2)))) (M (P (V "x") (N 1 2)) (P (K EE) (V "x"))));
  Value (Df (D (T Cos (V "x")) (L (V "x"))) "x") (D (S (M (M (Ng (V "x")) (T Sin (V "x"))) (L (V "x"))) (T Cos (V "x"))) (M (V "x") (P (L (V "x")) (N (2) 1))));
  Value (Df (D (T Sin (V "x")) (P (K EE) (V "x"))) "x") (D (S (T Cos (V "x")) (T Sin (V "x"))) (P (K EE) (V "x")));
  Value (Df (D (T Sec (M (P (V "y") (N (3) 1)) (K EPi))) (N (4) 1)) "x") (N (0) 1)].
Example test_derivatives_ok : forallb passes test_derivatives = true.
Proof. vm_compute. reflexivity. Qed.

Definition test_nums : list chk := [
  Strict (P (K EInf) (N (1) 1)) (K EInf);
  Strict (K EInf) (A (K EInf) (N (1) 1));
  Strict (P (K EInf) (N 1 2)) (K EInf);
  Strict (K EInf) (M (N (2) 1) (K EInf));
  Strict (Ng (K EInf)) (S (Ng (K EInf)) (N (1) 1));
  Strict (Ng (K EInf)) (M (N (-2) 1) (K EInf))].
Example test_nums_ok : forallb passes test_nums = true.
Proof. vm_compute. reflexivity. Qed.

Definition test_pts : list chk := [
  Strict (Pts (P (T Sin (V "x")) (N (3) 1))) (S (D (M (N (3) 1) (T Sin (V "x"))) (N (4) 1)) (D (T Sin (M (N (3) 1) (V "x"))) (N (4) 1)));
  Strict (Pts (P (T Cos (V "x")) (N (5) 1))) (A (A (D (T Cos (M (N (5) 1) (V "x"))) (N (16) 1)) (D (M (N (5) 1) (T Cos (M (N (3) 1) (V "x")))) (N (16) 1))) (D (M (N (5) 1) (T Cos (V "x"))) (N (8) 1)));
  Strict (Pts (M (M (T Sin (V "x")) (T Cos (V "x"))) (T Sin (M (N (2) 1) (V "x"))))) (A (D (P (T Sin (V "x")) (N (2) 1)) (N (2) 1)) (D (M (T Sin (M (N (3) 1) (V "x"))) (T Sin (V "x"))) (N (2) 1)));
  Strict (Pts (M (P (T Sin (V "x")) (N (3) 1)) (T Cos (V "x")))) (S (D (T Sin (M (N (2) 1) (V "x"))) (N (4) 1)) (D (T Sin (M (N (4) 1) (V "x"))) (N (8) 1)));
  Strict (Pts (M (P (T Sin (V "x")) (N (3) 1)) (P (T Cos (V "x")) (N (2) 1)))) (S (A (D (T Sin (V "x")) (N (8) 1)) (D (T Sin (M (N (3) 1) (V "x"))) (N (16) 1))) (D (T Sin (M (N (5) 1) (V "x"))) (N (16) 1)))].
Example test_pts_ok : forallb passes test_pts = true.
Proof. vm_compute. reflexivity. Qed.

Definition test_trig_simplify : list chk := [
  Strict (Sim (D (N (1) 1) (T Sin (V "x")))) (T Csc (V "x"));
  Strict (Sim (D (N (1) 1) (T Cos (V "x")))) (T Sec (V "x"));
  Strict (Sim (D (T Sin (V "x")) (T Cos (V "x")))) (T Tan (V "x"));
  Strict (Sim (D (M (N (2) 1) (T Sin (V "x"))) (T Cos (V "x")))) (M (N (2) 1) (T Tan (V "x")));
  Strict (Sim (D (Ng (T Sin (V "x"))) (T Cos (V "x")))) (Ng (T Tan (V "x")));
  Strict (Sim (D (N (2) 1) (T Sin (V "x")))) (M (N (2) 1) (T Csc (V "x")));
  Strict (Sim (D (N (-1) 1) (T Sin (V "x")))) (Ng (T Csc (V "x")));
  Strict (Sim (A (A (P (T Sin (V "x")) (N (2) 1)) (P (T Cos (V "x")) (N (2) 1))) (N (3) 1))) (N (4) 1);
  Strict (Sim (A (A (A (A (P (T Sin (S (V "x") (M (N (2) 1) (V "y")))) (N (2) 1)) (N (3) 1)) (P (T Cos (S (V "x") (M (N (2) 1) (V "y")))) (N (2) 1))) (P (V "y") (N (2) 1))) (T Cos (V "x")))) (A (A (N (4) 1) (P (V "y") (N (2) 1))) (T Cos (V "x")));
  Strict (Sim (A (M (M (N (2) 1) (V "y")) (P (T Sin (P (V "x") (N (3) 1))) (N (2) 1))) (M (M (N (2) 1) (V "y")) (P (T Cos (P (V "x") (N (3) 1))) (N (2) 1))))) (M (N (2) 1) (V "y"));
  Strict (Sim (S (S (P (T Sin (V "x")) (N (2) 1)) (M (N (5) 1) (P (T Cos (V "x")) (N (2) 1)))) (N (1) 1))) (M (N (-6) 1) (P (T Cos (V "x")) (N (2) 1)));
  Strict (Sim (A (N (1) 1) (P (T Tan (A (V "x") (V "y"))) (N (2) 1)))) (P (T Sec (A (V "x") (V "y"))) (N (2) 1));
  Strict (Sim (A (N (2) 1) (M (N (2) 1) (P (T Tan (A (V "x") (V "y"))) (N (2) 1))))) (M (N (2) 1) (P (T Sec (A (V "x") (V "y"))) (N (2) 1)));
  Strict (Sim (A (S (N (1) 1) (P (T Sin (V "x")) (N (2) 1))) (V "x"))) (A (V "x") (P (T Cos (V "x")) (N (2) 1)));
  Strict (Sim (S (D (M (M (N (2) 1) (T Cos (V "x"))) (T Sin (M (N (2) 1) (V "x")))) (N (3) 1)) (D (M (T Sin (V "x")) (T Cos (M (N (2) 1) (V "x")))) (N (3) 1)))) (A (D (T Sin (M (N (3) 1) (V "x"))) (N (6) 1)) (D (T Sin (V "x")) (N (2) 1)));
  Strict (Sim (S (D (T Sin (V "x")) (T Cos (V "x"))) (D (T Csc (V "x")) (T Cos (V "x"))))) (Ng (T Cot (V "x")));
  PlusC (A (S (D (N (1) 1) (M (N (4) 1) (P (T Cos (V "x")) (N (4) 1)))) (D (N (1) 1) (M (N (3) 1) (P (T Cos (V "x")) (N (6) 1))))) (D (N (1) 1) (M (N (8) 1) (P (T Cos (V "x")) (N (8) 1))))) (A (D (P (T Tan (V "x")) (N (6) 1)) (N (6) 1)) (D (P (T Tan (V "x")) (N (8) 1)) (N (8) 1))) [];
  Value (A (S (S (S (A (D (M (T Sin (V "x")) (T Cos (M (N (4) 1) (V "x")))) (N (120) 1)) (D (M (T Sin (V "x")) (T Cos (M (N (2) 1) (V "x")))) (N (12) 1))) (D (M (T Cos (V "x")) (T Sin (M (N (4) 1) (V "x")))) (N (30) 1))) (D (M (T Cos (V "x")) (T Sin (M (N (2) 1) (V "x")))) (N (6) 1))) (D (P (T Sin (V "x")) (N (3) 1)) (N (6) 1))) (D (M (N (3) 1) (T Sin (V "x"))) (N (8) 1))) (S (D (P (T Sin (V "x")) (N (3) 1)) (N (3) 1)) (D (P (T Sin (V "x")) (N (5) 1)) (N (5) 1)));
  Value (A (S (A (D (P (T Sin (M (N (2) 1) (V "x"))) (N (3) 1)) (N (48) 1)) (D (M (N (3) 1) (T Sin (M (N (4) 1) (V "x")))) (N (64) 1))) (D (T Sin (M (N (2) 1) (V "x"))) (N (4) 1))) (D (M (N (5) 1) (V "x")) (N (16) 1))) (D (A (S (S (M (N (9) 1) (T Sin (M (N (4) 1) (V "x")))) (T Sin (M (N (6) 1) (V "x")))) (M (N (45) 1) (T Sin (M (N (2) 1) (V "x"))))) (M (N (60) 1) (V "x"))) (N (192) 1))].
Example test_trig_simplify_ok : forallb passes test_trig_simplify = true.
Proof. vm_compute. reflexivity. Qed.

Definition test_integrals_basic : list chk := [
  Strict (I (N (2) 1) (TTriple "x" (N (5) 1) (N (3) 1))) (N (-4) 1);
  PlusC (I (P (V "x") (N (7) 3)) TNone) (M (N (3) 10) (P (V "x") (N (10) 3))) [];
  PlusC (I (S (M (N (3) 1) (P (V "x") (N (2) 1))) (M (N (2) 1) (V "x"))) TNone) (S (P (V "x") (N (3) 1)) (P (V "x") (N (2) 1))) [];
  PlusC (I (P (A (V "x") (N (1) 1)) (N (2) 1)) TNone) (A (A (V "x") (P (V "x") (N (2) 1))) (D (P (V "x") (N (3) 1)) (N (3) 1))) [];
  PlusC (I (P (V "x") (N (12) 1)) TNone) (D (P (V "x") (N (13) 1)) (N (13) 1)) [];
  PlusC (I (D (N (1) 1) (V "x")) TNone) (L (Ab (V "x"))) [];
  Strict (I (D (N (1) 1) (V "x")) (TTriple "x" (N (1) 1) (N (2) 1))) (L (N (2) 1));
  PlusC (I (V "y") (TVar "x")) (M (V "x") (V "y")) [];
  PlusC (I (T Tan (V "y")) (TVar "x")) (M (V "x") (T Tan (V "y"))) [];
  Strict (I (D (M (D (V "x") (N (90) 1)) (P (S (V "x") (N (5) 1)) (N (2) 1))) (N (350) 1)) (TTriple "x" (N (5) 1) (N (6) 1))) (N (23) 378000);
  Strict (I (D (M (S (N (1) 15) (M (N (1) 360) (S (V "x") (N (6) 1)))) (P (S (V "x") (N (5) 1)) (N (2) 1))) (N (350) 1)) (TTriple "x" (N (6) 1) (N (15) 1))) (N (2589) 56000);
  Strict (I (M (S (N (1) 15) (M (N (1) 360) (S (V "x") (N (6) 1)))) (S (N (1) 1) (D (P (S (N (40) 1) (V "x")) (N (2) 1)) (N (875) 1)))) (TTriple "x" (N (15) 1) (N (30) 1))) (N (37) 224)].
Example test_integrals_basic_ok : forallb passes test_integrals_basic = true.
Proof. vm_compute. reflexivity. Qed.

Definition test_integrals_lecture : list chk := [
  PlusC (I (D (M (N (-5) 1) (P (V "x") (N (4) 1))) (P (S (N (1) 1) (P (V "x") (N (2) 1))) (N (5) 2))) TNone) (M (N (-5) 1) (A (A (Ng (D (V "x") (P (S (N (1) 1) (P (V "x") (N (2) 1))) (N 1 2)))) (D (M (N (1) 3) (P (V "x") (N (3) 1))) (P (S (N (1) 1) (P (V "x") (N (2) 1))) (N (3) 2)))) (T Asin (V "x")))) []].
Example test_integrals_lecture_ok : forallb passes test_integrals_lecture = true.
Proof. vm_compute. reflexivity. Qed.

Definition test_integrals_more : list chk := [
  PlusC (I (D (P (V "x") (N (2) 1)) (P (S (N (1) 1) (P (V "x") (N (3) 1))) (N 1 2))) TNone) (D (M (N (-2) 1) (P (S (N (1) 1) (P (V "x") (N (3) 1))) (N 1 2))) (N (3) 1)) [];
  PlusC (M (D (N (1) 1) (D (M (N (2) 1) (K EPi)) (V "w"))) (I (M (T Cos (S (M (V "w") (V "t")) (V "\phi"))) (T Cos (M (V "w") (V "t")))) (TTriple "t" (N (0) 1) (D (M (N (2) 1) (K EPi)) (V "w"))))) (D (T Cos (V "\phi")) (N (2) 1)) [];
  PlusC (I (P (T Sin (V "x")) (N (2) 1)) TNone) (S (D (V "x") (N (2) 1)) (D (T Sin (M (N (2) 1) (V "x"))) (N (4) 1))) [];
  PlusC (I (P (T Cos (V "x")) (N (2) 1)) TNone) (A (D (T Sin (M (N (2) 1) (V "x"))) (N (4) 1)) (D (V "x") (N (2) 1))) [];
  Any [Strict (I (D (T Sin (M (N (2) 1) (V "x"))) (T Cos (M (N (2) 1) (V "x")))) TNone) (D (Ng (L (Ab (T Cos (M (N (2) 1) (V "x")))))) (N (2) 1)); Strict (I (D (T Sin (M (N (2) 1) (V "x"))) (T Cos (M (N (2) 1) (V "x")))) TNone) (D (L (Ab (T Sec (M (N (2) 1) (V "x"))))) (N (2) 1))];
  PlusC (I (M (T Sin (M (V "w") (V "t"))) (T Cos (M (V "w") (V "t")))) (TVar "t")) (D (P (T Sin (M (V "w") (V "t"))) (N (2) 1)) (M (N (2) 1) (V "w"))) ["t"];
  Strict (Df (S (M (V "x") (L (V "x"))) (V "x")) "x") (L (V "x"));
  PlusC (I (L (V "x")) TNone) (S (M (V "x") (L (V "x"))) (V "x")) [];
  PlusC (I (D (L (A (V "x") (N (6) 1))) (P (V "x") (N (2) 1))) TNone) (S (S (D (L (Ab (V "x"))) (N (6) 1)) (D (L (A (V "x") (N (6) 1))) (V "x"))) (D (L (Ab (A (V "x") (N (6) 1)))) (N (6) 1))) [];
  Unsolved (P (A (P (V "x") (N (2) 1)) (N (11) 1)) (N 1 2)) "x";
  PlusC (I (M (T Cos (V "x")) (T Cos (M (N (2) 1) (V "x")))) TNone) (A (D (T Sin (M (N (3) 1) (V "x"))) (N (6) 1)) (D (T Sin (V "x")) (N (2) 1))) [];
  PlusC (I (D (N (1) 1) (P (A (A (Ng (P (V "x") (N (2) 1))) (M (N (10) 1) (V "x"))) (N (11) 1)) (N 1 2))) TNone) (T Asin (D (S (V "x") (N (5) 1)) (N (6) 1))) [];
  Value (S (D (I (P (M (N (3) 1) (T Sin (V "theta"))) (N (2) 1)) (TTriple "theta" (D (K EPi) (N (6) 1)) (D (M (N (5) 1) (K EPi)) (N (6) 1)))) (N (2) 1)) (D (I (P (A (N (1) 1) (T Sin (V "theta"))) (N (2) 1)) (TTriple "theta" (D (K EPi) (N (6) 1)) (D (M (N (5) 1) (K EPi)) (N (6) 1)))) (N (2) 1))) (K EPi);
  PlusC (I (M (M (T Sin (V "x")) (T Cos (M (N (2) 1) (V "x")))) (T Sin (M (N (2) 1) (V "x")))) TNone) (S (D (M (N (2) 1) (P (T Sin (V "x")) (N (3) 1))) (N (3) 1)) (D (M (N (4) 1) (P (T Sin (V "x")) (N (5) 1))) (N (5) 1))) []].
Example test_integrals_more_ok : forallb passes test_integrals_more = true.
Proof. vm_compute. reflexivity. Qed.

Definition test_khan_1 : list chk := [
  PlusC (I (M (N (6) 1) (P (K EE) (V "x"))) (TTriple "x" (N (6) 1) (N (12) 1))) (S (M (N (6) 1) (P (K EE) (N (12) 1))) (M (N (6) 1) (P (K EE) (N (6) 1)))) [];
  PlusC (I (M (V "x") (T Cos (V "x"))) (TTriple "x" (D (M (N (3) 1) (K EPi)) (N (2) 1)) (K EPi))) (S (D (M (N (3) 1) (K EPi)) (N (2) 1)) (N (1) 1)) [];
  PlusC (I (D (A (V "x") (N (8) 1)) (M (V "x") (A (V "x") (N (6) 1)))) TNone) (S (M (N (4) 3) (L (Ab (V "x")))) (M (N (1) 3) (L (Ab (A (V "x") (N (6) 1)))))) [];
  PlusC (I (D (D (S (N (18) 1) (M (N (12) 1) (V "x"))) (S (M (N (4) 1) (V "x")) (N (1) 1))) (S (V "x") (N (4) 1))) TNone) (S (Ng (L (Ab (S (M (N (4) 1) (V "x")) (N (1) 1))))) (M (N (2) 1) (L (Ab (S (V "x") (N (4) 1)))))) [];
  PlusC (I (D (D (A (M (N (2) 1) (V "x")) (N (3) 1)) (S (V "x") (N (3) 1))) (A (V "x") (N (3) 1))) TNone) (A (D (M (N (3) 1) (L (Ab (S (V "x") (N (3) 1))))) (N (2) 1)) (D (L (Ab (A (V "x") (N (3) 1)))) (N (2) 1))) [];
  PlusC (I (D (D (S (V "x") (N (2) 1)) (A (M (N (2) 1) (V "x")) (N (1) 1))) (A (V "x") (N (3) 1))) TNone) (A (D (Ng (L (Ab (A (M (N (2) 1) (V "x")) (N (1) 1))))) (N (2) 1)) (L (Ab (A (V "x") (N (3) 1))))) [];
  PlusC (I (M (V "x") (P (K EE) (Ng (V "x")))) TNone) (M (Ng (P (K EE) (Ng (V "x")))) (A (V "x") (N (1) 1))) [];
  PlusC (I (D (L (V "x")) (P (V "x") (N (2) 1))) TNone) (S (D (Ng (L (V "x"))) (V "x")) (D (N (1) 1) (V "x"))) [];
  Strict (I (M (V "x") (P (S (V "x") (V "y")) (N 1 2))) (TTriple "x" (N (0) 1) (V "y"))) (M (N (4) 15) (P (Ng (V "y")) (N (5) 2)));
  Strict (I (M (V "x") (P (K EE) (M (N (4) 1) (V "x")))) (TPair (N (0) 1) (N (2) 1))) (A (M (N (7) 16) (P (K EE) (N (8) 1))) (N (1) 16));
  Strict (I (M (Ng (V "x")) (T Cos (V "x"))) (TPair (D (K EPi) (N (2) 1)) (K EPi))) (A (N (1) 1) (D (K EPi) (N (2) 1)));
  PlusC (I (M (P (K EE) (V "x")) (T Sin (V "x"))) TNone) (M (D (P (K EE) (V "x")) (N (2) 1)) (S (T Sin (V "x")) (T Cos (V "x")))) [];
  PlusC (I (M (P (V "x") (N (2) 1)) (T Sin (M (K EPi) (V "x")))) TNone) (A (A (D (M (Ng (P (V "x") (N (2) 1))) (T Cos (M (K EPi) (V "x")))) (K EPi)) (D (M (M (N (2) 1) (V "x")) (T Sin (M (K EPi) (V "x")))) (P (K EPi) (N (2) 1)))) (D (M (N (2) 1) (T Cos (M (K EPi) (V "x")))) (P (K EPi) (N (3) 1)))) [];
  PlusC (I (T Asin (V "x")) (TVar "x")) (A (M (V "x") (T Asin (V "x"))) (P (S (N (1) 1) (P (V "x") (N (2) 1))) (N 1 2))) [];
  PlusC (I (T Acos (V "x")) (TVar "x")) (S (M (V "x") (T Acos (V "x"))) (P (S (N (1) 1) (P (V "x") (N (2) 1))) (N 1 2))) [];
  PlusC (I (T Atan (V "x")) (TVar "x")) (S (M (V "x") (T Atan (V "x"))) (D (L (Ab (A (N (1) 1) (P (V "x") (N (2) 1))))) (N (2) 1))) []].
Example test_khan_1_ok : forallb passes test_khan_1 = true.
Proof. vm_compute. reflexivity. Qed.

Definition test_khan_2 : list chk := [
  Strict (I (M (T Sec (M (N (2) 1) (V "x"))) (T Tan (M (N (2) 1) (V "x")))) (TTriple "x" (N (0) 1) (D (K EPi) (N (6) 1)))) (N (1) 2);
  PlusC (I (M (N (4) 1) (P (T Sec (V "x")) (N (2) 1))) TNone) (M (N (4) 1) (T Tan (V "x"))) [];
  PlusC (I (M (P (T Sec (V "x")) (N (2) 1)) (P (T Tan (V "x")) (N (2) 1))) TNone) (D (P (T Tan (V "x")) (N (3) 1)) (N (3) 1)) [];
  PlusC (I (S (D (N (5) 1) (V "x")) (M (N (3) 1) (P (K EE) (V "x")))) TNone) (S (M (N (5) 1) (L (Ab (V "x")))) (M (N (3) 1) (P (K EE) (V "x")))) [];
  PlusC (I (T Sec (V "x")) TNone) (L (A (T Sec (V "x")) (T Tan (V "x")))) [];
  PlusC (I (M (N (2) 1) (T Cos (S (M (N (2) 1) (V "x")) (N (5) 1)))) TNone) (T Sin (S (M (N (2) 1) (V "x")) (N (5) 1))) [];
  PlusC (I (A (S (M (N (3) 1) (P (V "x") (N (5) 1))) (P (V "x") (N (3) 1))) (N (6) 1)) TNone) (A (S (M (N (6) 1) (V "x")) (D (P (V "x") (N (4) 1)) (N (4) 1))) (D (P (V "x") (N (6) 1)) (N (2) 1))) [];
  PlusC (I (M (P (V "x") (N (3) 1)) (P (K EE) (P (V "x") (N (4) 1)))) TNone) (D (P (K EE) (P (V "x") (N (4) 1))) (N (4) 1)) [];
  Strict (I (D (P (K EE) (V "x")) (A (N (1) 1) (P (K EE) (V "x")))) (TPair (L (N (2) 1)) (L (N (8) 1)))) (S (L (N (9) 1)) (L (N (3) 1)));
  Strict (I (D (M (N (8) 1) (V "x")) (P (S (N (1) 1) (M (N (4) 1) (P (V "x") (N (2) 1)))) (N 1 2))) (TPair (N (0) 1) (N (1) 4))) (S (N (2) 1) (P (N (3) 1) (N 1 2)));
  Strict (I (T Sin (M (N (4) 1) (V "x"))) (TPair (N (0) 1) (D (K EPi) (N (4) 1)))) (N (1) 2);
  PlusC (I (M (N (5) 1) (P (T Csc (V "x")) (N (2) 1))) TNone) (M (N (-5) 1) (T Cot (V "x"))) [];
  PlusC (I (M (M (N (2) 1) (T Csc (V "x"))) (T Cot (V "x"))) TNone) (M (N (-2) 1) (T Csc (V "x"))) []].
Example test_khan_2_ok : forallb passes test_khan_2 = true.
Proof. vm_compute. reflexivity. Qed.

Definition test_khan_3 : list chk := [
  PlusC (I (P (S (M (N (2) 1) (V "x")) (N (5) 1)) (N (10) 1)) TNone) (D (P (S (M (N (2) 1) (V "x")) (N (5) 1)) (N (11) 1)) (N (22) 1)) [];
  PlusC (I (M (M (N (3) 1) (P (V "x") (N (2) 1))) (P (A (P (V "x") (N (3) 1)) (N (1) 1)) (N (6) 1))) TNone) (D (P (A (N (1) 1) (P (V "x") (N (3) 1))) (N (7) 1)) (N (7) 1)) [];
  PlusC (I (D (S (V "x") (N (5) 1)) (A (M (N (-2) 1) (V "x")) (N (2) 1))) TNone) (A (D (Ng (V "x")) (N (2) 1)) (M (N (2) 1) (L (Ab (S (N (1) 1) (V "x")))))) [];
  PlusC (I (D (S (P (V "x") (N (3) 1)) (N (1) 1)) (A (V "x") (N (2) 1))) TNone) (S (A (S (D (P (V "x") (N (3) 1)) (N (3) 1)) (P (V "x") (N (2) 1))) (M (N (4) 1) (V "x"))) (M (N (9) 1) (L (Ab (A (N (2) 1) (V "x")))))) [];
  PlusC (I (D (S (V "x") (N (1) 1)) (A (M (N (2) 1) (V "x")) (N (4) 1))) TNone) (S (D (V "x") (N (2) 1)) (M (N (3) 2) (L (Ab (A (V "x") (N (2) 1)))))) [];
  PlusC (I (D (N (1) 1) (A (A (M (N (3) 1) (P (V "x") (N (2) 1))) (M (N (6) 1) (V "x"))) (N (78) 1))) TNone) (D (T Atan (D (A (N (1) 1) (V "x")) (N (5) 1))) (N (15) 1)) [];
  PlusC (I (D (N (1) 1) (A (S (P (V "x") (N (2) 1)) (M (N (8) 1) (V "x"))) (N (65) 1))) TNone) (D (T Atan (D (A (N (-4) 1) (V "x")) (N (7) 1))) (N (7) 1)) [];
  PlusC (I (D (N (1) 1) (P (A (S (Ng (P (V "x") (N (2) 1))) (M (N (6) 1) (V "x"))) (N (40) 1)) (N 1 2))) TNone) (T Asin (D (A (N (3) 1) (V "x")) (N (7) 1))) [];
  Strict (I (Ng (P (K EE) (V "x"))) (TPair (Ng (K EInf)) (N (1) 1))) (Ng (K EE));
  Strict (I (P (K EE) (Ng (V "x"))) (TPair (N (0) 1) (K EInf))) (N (1) 1)].
Example test_khan_3_ok : forallb passes test_khan_3 = true.
Proof. vm_compute. reflexivity. Qed.

Definition test_khan_4 : list chk := [
  PlusC (I (P (T Sin (V "x")) (N (4) 1)) TNone) (D (A (S (T Sin (M (N (4) 1) (V "x"))) (M (N (8) 1) (T Sin (M (N (2) 1) (V "x"))))) (M (N (12) 1) (V "x"))) (N (32) 1)) [];
  Any [PlusC (I (P (T Sin (V "x")) (N (6) 1)) TNone) (A (S (A (D (P (T Sin (M (N (2) 1) (V "x"))) (N (3) 1)) (N (48) 1)) (D (M (N (3) 1) (T Sin (M (N (4) 1) (V "x")))) (N (64) 1))) (D (T Sin (M (N (2) 1) (V "x"))) (N (4) 1))) (D (M (N (5) 1) (V "x")) (N (16) 1))) []; PlusC (I (P (T Sin (V "x")) (N (6) 1)) TNone) (D (A (S (S (M (N (9) 1) (T Sin (M (N (4) 1) (V "x")))) (T Sin (M (N (6) 1) (V "x")))) (M (N (45) 1) (T Sin (M (N (2) 1) (V "x"))))) (M (N (60) 1) (V "x"))) (N (192) 1)) []];
  PlusC (I (M (P (T Sin (V "x")) (N (2) 1)) (P (T Cos (V "x")) (N (3) 1))) TNone) (S (D (P (T Sin (V "x")) (N (3) 1)) (N (3) 1)) (D (P (T Sin (V "x")) (N (5) 1)) (N (5) 1))) [];
  PlusC (I (P (T Sin (V "x")) (N (3) 1)) TNone) (S (D (P (T Cos (V "x")) (N (3) 1)) (N (3) 1)) (T Cos (V "x"))) [];
  PlusC (I (P (T Cos (V "x")) (N (5) 1)) TNone) (A (S (D (P (T Sin (V "x")) (N (5) 1)) (N (5) 1)) (D (M (N (2) 1) (P (T Sin (V "x")) (N (3) 1))) (N (3) 1))) (T Sin (V "x"))) [];
  Value (I (P (T Tan (V "x")) (N (4) 1)) (TPair (N (0) 1) (D (K EPi) (N (4) 1)))) (S (D (K EPi) (N (4) 1)) (N (2) 3));
  PlusC (I (M (P (T Tan (V "x")) (N (5) 1)) (P (T Sec (V "x")) (N (4) 1))) TNone) (A (D (P (T Tan (V "x")) (N (6) 1)) (N (6) 1)) (D (P (T Tan (V "x")) (N (8) 1)) (N (8) 1))) []].
Example test_khan_4_ok : forallb passes test_khan_4 = true.
Proof. vm_compute. reflexivity. Qed.

Definition test_transforms : list chk := [
  Strict (Tr t_pull (M (N (2) 1) (P (V "x") (N (3) 1)))) (P (V "x") (N (3) 1));
  Strict (Tr t_poly (A (M (N (6) 1) (V "x")) (P (V "x") (N (2) 1)))) (A (P (V "y") (N (2) 1)) (M (N (6) 1) (V "y")));
  Strict (Tr t_polydiv (M (P (V "x") (N (4) 1)) (P (A (N (1) 1) (P (V "x") (N (2) 1))) (N (-1) 1)))) (A (S (P (V "x") (N (2) 1)) (N (1) 1)) (D (N (1) 1) (A (N (1) 1) (P (V "x") (N (2) 1)))));
  Strict (Tr t_cts (A (A (Ng (P (V "x") (N (2) 1))) (M (N (10) 1) (V "x"))) (N (11) 1))) (M (N (36) 1) (A (D (Ng (P (S (V "x") (N (5) 1)) (N (2) 1))) (N (36) 1)) (N (1) 1)));
  Strict (Tr (t_rest Sin (-1) 1) (A (S (Ng (P (T Sin (V "x")) (N (2) 1))) (P (N (5) 1) (P (T Cos (V "x")) (N (2) 1)))) (N (1) 1))) (Ng (P (N (5) 1) (P (T Cos (V "x")) (N (2) 1))));
  Strict (Tr (t_match Sin (-1) 1) (A (S (Ng (P (T Sin (V "x")) (N (2) 1))) (P (N (5) 1) (P (T Cos (V "x")) (N (2) 1)))) (N (1) 1))) (V "x");
  Strict (Tr (t_match Tan 1 1) (A (P (T Tan (A (M (N (2) 1) (V "x")) (V "y"))) (N (2) 1)) (N (1) 1))) (A (M (N (2) 1) (V "x")) (V "y"))].
Example test_transforms_ok : forallb passes test_transforms = true.
Proof. vm_compute. reflexivity. Qed.

Definition test_latex : list chk := [
  Ltx (N (1) 2) "\frac12";
  LtxExact (D (V "x") (N (2) 1)) "\frac x2";
  Ltx (D (A (V "x") (N (2) 1)) (N (3) 1)) "\frac{x+2}3";
  Ltx (P (V "x") (N (2) 1)) "x^2";
  Ltx (P (A (N (2) 1) (V "x")) (L (V "x"))) "(x+2)^{\ln(x)}";
  Ltx (P (V "x") (A (V "y") (N (3) 1))) "x^{y+3}";
  Ltx (P (A (N (2) 1) (V "x")) (V "y")) "(x+2)^y";
  Ltx (P (V "x") (N (-3) 1)) "x^{-3}";
  Ltx (P (V "x") (Ng (K EE))) "x^{-e}";
  Ltx (D (S (V "x") (N (5) 1)) (N (2) 1)) "\frac{x - 5}2";
  Ltx (T Sec (M (N (2) 1) (V "x"))) "\sec(2 \cdot x)";
  Ltx (T Atan (V "x")) "\tan^{-1}(x)";
  Ltx (S (M (N (2) 1) (L (Ab (S (N (1) 1) (V "x"))))) (D (V "x") (N (2) 1))) "2 \cdot \ln (| -x + 1 |) - \frac x2";
  Ltx (A (D (Ng (L (Ab (A (P (V "x") (N (2) 1)) (N (1) 1))))) (N (2) 1)) (M (V "x") (T Atan (V "x")))) "-\frac{\ln \left( \left| x^2 + 1 \right| \right)}2 + x \cdot \tan^{-1} (x)";
  Ltx (T Tan (D (A (N (2) 1) (V "x")) (A (V "x") (N (3) 1)))) "\tan \left(\frac{x + 2}{x + 3} \right)"].
Example test_latex_ok : forallb passes test_latex = true.
Proof. vm_compute. reflexivity. Qed.


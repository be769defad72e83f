From Coq Require Import List String ZArith Bool Arith.
From Verif Require Import Fed.Zone Model.Base Model.Expr Model.Guard Model.Loc Model.Leaves.
Import ListNotations.
Local Open Scope string_scope. Local Open Scope list_scope.
Definition E := mkDecls [] [].
Definition gi l r := get_indices l r E.
Notation D := mk_dif. Notation A' := AAddition. Notation C := AClock. Notation I := AInt. Notation M := AMultiplication.
Definition none {A} (r : res A) := match r with Err => true | _ => false end.
Definition tests := (
 [gi (I 3) (C 1); gi (C 1) (I 3); gi (C 1) (C 2); gi (D (C 1) (C 2)) (I 3); gi (D (C 1) (I 2)) (I 3); gi (D (I 1) (C 2)) (I 3); gi (I 3) (D (C 1) (C 2));
  gi (C 1) (D (C 2) (I 3)); gi (D (C 2) (I 3)) (C 1); gi (A' (C 1) (I 2)) (A' (C 3) (I 4)); gi (A' (I 1) (C 2)) (A' (C 3) (I 4)); gi (A' (C 1) (I 2)) (A' (I 3) (C 4)); gi (A' (I 1) (C 2)) (A' (I 3) (C 4));
  gi (D (C 1) (I 2)) (D (C 3) (I 4)); gi (D (I 1) (C 2)) (D (I 3) (C 4)); gi (C 1) (A' (C 3) (I 4)); gi (A' (C 3) (I 4)) (C 1);
  gi (M (I 4) (I 3)) (C 10); gi (ADivision (I 4) (I 2)) (C 10); gi (AModulo (I 4) (I 3)) (C 10);
  gi (D (I 10) (D (I 9) (D (I 8) (D (I 7) (D (C 6) (D (I 5) (D (I 4) (D (I 3) (I 2))))))))) (I 2);
  gi (D (M (I 3) (I 3)) (C 10)) (D (I 10) (C 10))])%Z.
Definition want : list (res (nat * nat * Z)) := [Ok (0%nat,1%nat,-3); Ok (1%nat,0%nat,3); Ok (1%nat,2%nat,0); Ok (1%nat,2%nat,3); Ok (1%nat,0%nat,5); Ok (0%nat,2%nat,2); Ok (2%nat,1%nat,-3); Ok (1%nat,2%nat,-3); Ok (2%nat,1%nat,3); Ok (1%nat,3%nat,2); Ok (2%nat,3%nat,3); Ok (1%nat,4%nat,1); Ok (2%nat,4%nat,2); Ok (1%nat,3%nat,-2); Ok (4%nat,2%nat,2); Ok (1%nat,3%nat,4); Ok (3%nat,1%nat,-4); Ok (0%nat,10%nat,-12); Ok (0%nat,10%nat,-2); Ok (0%nat,10%nat,-1); Ok (6%nat,0%nat,6); Ok (10%nat,10%nat,1)]%Z.
Goal tests = want. vm_compute. reflexivity. Qed.
Goal forallb none [gi (A' (C 1) (C 2)) (I 4); gi (D (I 2) (C 3)) (C 1); gi (I 3) (A' (C 1) (C 2)); gi (M (C 2) (I 3)) (I 10); gi (M (I 3) (C 2)) (I 10); gi (ADivision (C 2) (I 3)) (I 10); gi (AModulo (C 2) (I 3)) (I 10); gi (D (C 1) (C 2)) (C 3); gi (I 1) (I 2); gi (A' (I 1) (I 2)) (I 3); gi (D (M (C 3) (I 3)) (I 10)) (C 10)] = true. vm_compute. reflexivity. Qed.
Notation P := mk_add.
Goal map simplify [D (I 10) (I 5); P (I 10) (I 5); M (D (I 10) (I 5)) (P (I 5) (I 3)); M (P (I 10) (I 5)) (D (I 5) (I 3));
  D (C 1) (D (I 5) (D (I 4) (D (I 3) (I 2)))); P (C 1) (P (I 5) (P (I 4) (P (I 3) (I 2)))); D (C 1) (D (D (D (I 5) (I 4)) (I 3)) (I 2)); P (C 1) (P (P (P (I 5) (I 4)) (I 3)) (I 2));
  D (D (D (I 5) (C 4)) (I 3)) (I 2); P (P (P (I 5) (C 4)) (I 3)) (I 2); D (I 5) (D (I 4) (D (I 3) (C 2))); P (I 5) (P (I 4) (P (I 3) (C 2)));
  D (I 5) (D (C 4) (D (I 3) (D (I 2) (I 1)))); P (I 5) (P (C 4) (P (I 3) (P (I 2) (I 1)))); mk_mul (I 10) (I 5); mk_div (I 10) (I 5); I 0]
 = [Ok (I 5); Ok (I 15); Ok (I 40); Ok (I 30); Ok (D (C 1) (I 2)); Ok (P (C 1) (I 14)); Ok (D (C 1) (I (-4))); Ok (P (C 1) (I 14)); Ok (D (I 0) (C 4)); Ok (P (I 10) (C 4)); Ok (D (I 4) (C 2)); Ok (P (I 12) (C 2)); Ok (D (C 4) (I 3)); Ok (P (C 4) (I 11)); Ok (I 50); Ok (I 2); Ok (I 0)].
vm_compute. reflexivity. Qed.
Goal forallb none (map simplify [mk_mul (C 10) (I 5); mk_mul (I 10) (C 5); mk_div (C 10) (I 5); mk_div (I 10) (C 5); AModulo (C 10) (I 5); AModulo (I 10) (C 5)]) = true. vm_compute. reflexivity. Qed.
Definition ss := TISimple.
Notation a := (ss "a"). Notation b := (ss "b"). Notation c := (ss "c"). Notation d := (ss "d"). Notation e := (ss "e").
Goal map get_leaves [TIConj a b; TIComp a b; TIConj (TIConj a b) c; TIComp (TIConj a (TIComp b c)) (TIComp d e); TIQuot [a] [b]; TIQuot [a; b] [c; d; e]; TIConj (TIQuot [TIConj a b; TIConj c d] [e; ss "f"]) (ss "g")]
 = [Ok [[a];[b]]; Ok [[a];[b]]; Ok [[a];[b];[c]]; Ok [[a];[b];[c];[d];[e]]; Ok [[a];[b]]; Ok [[a;b];[c;d;e]]; Ok [[a;c];[b;d];[e;ss "f"];[ss "g"]]].
vm_compute. reflexivity. Qed.
Goal map split_paths [[]; [a]; [a; TINone]; [TIConj a b]; [TIConj a b; TIConj c d; TIConj e (ss "f")]; [a; TIConj b c]; [TIConj b c; a]]
 = [Ok []; Ok [[[a]]]; Ok [[[a];[]]]; Ok [[[a]];[[b]]]; Ok [[[a];[c];[e]];[[b];[d];[ss "f"]]]; Err; Err].
vm_compute. reflexivity. Qed.
Definition l n := LLeaf (LSimple n) None Normal.
Definition k x y t := match lt_compose 1 x y t with Ok z => z | _ => lt_any end.
Notation "x && y" := (k x y CConj). Notation "x || y" := (k x y CComp). Notation q := lt_quotient. Notation any := lt_any.
Goal map (fun p => compare_partial (fst p) (snd p))
 [(any, l "L9"); (LLeaf (LSimple "L0") None Initial, any); (l "L5", l "L5"); (q (l "L5") any, q (l "L5") (l "L1")); ((l "L5") && any, any && (l "L1")); ((l "L7") || any, l "L7" || l "L1"); (any || any, l "L2" || l "L1"); ((any || any) || l "L2", (l "L2" || l "L1") || l "L2"); (l "L_35", l "L_35")]
 = repeat (Ok true) 9. vm_compute. reflexivity. Qed.
Goal map (fun p => compare_partial (fst p) (snd p))
 [(l "L2" || l "L5", l "L2" || l "L1"); (q (l "L2") (l "L6"), l "L2" || l "L1"); (q (l "L7") (l "L6"), l "L2" && l "L1"); (q (l "L8") any, l "L2" && l "L1"); (any, l "L6" && l "L1"); (any, any && any); (l "L2" && l "L4", q (l "L2") (l "L4")); ((any || any) && l "L2", (l "L2" || l "L1") || l "L2"); ((l "L2" || any) && l "L2", any && any); (l "L7", l "L5"); (q any any, l "L6" && l "L25"); (l "_L1", l "L1"); (l "__", l "L7")]
 = repeat (Ok false) 13. vm_compute. reflexivity. Qed.

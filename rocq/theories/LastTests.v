(** /repo/tests/last-accessed-test.cpp, run in the model: tests of the model, not proofs
    about the code.  Strings are represented by numbers: "one" is 1, "forty-two" 42.
    Comparisons in both orders, and with const and other iterators, are the same step. *)
From Coq Require Import List Arith Bool.
Import ListNotations.
From Verif Require Import Monad LastObj Props28.

(** last-accessed-test.cpp:33-43 (map: elements 0, 1, 2), compared by KeyEqual object 0 *)
Definition test_map : list (lop nat nat) :=
  [LNewKey 1 true; LNewInfo 1; LNewKey 2 true; LNewInfo 2; LNewKey 3 true; LNewInfo 3].
Definition results (l0 l : list (lop nat nat)) : option (list (lret nat nat)) :=
  option_map (skipn (length l0)) (ltrace (l0 ++ l)).

(** last-accessed-test.cpp:45-62 *)
Example IsAssignableFromConstAndNonConst :
  results test_map [LOf 0 0 0; LKey 0; LInfo 0; LGive 0 (IAt 1 1); LKey 0; LInfo 0; LGive 0 (IAt 2 2); LKey 0; LInfo 0] =
  Some [LNum 0; LKeyIs 1; LInfoIs 1; LUnit; LKeyIs 2; LInfoIs 2; LUnit; LKeyIs 3; LInfoIs 3].
Proof. vm_compute. reflexivity. Qed.
(** last-accessed-test.cpp:64-85 *)
Example IsComparableWithConstAndNonConstIterators :
  results test_map [LOf 0 0 0; LEqIt 0 (IAt 0 0); LNeIt 0 (IAt 1 1); LNeIt 0 (IAt 2 2)] =
  Some [LNum 0; LBool true; LBool true; LBool true].
Proof. vm_compute. reflexivity. Qed.
(** last-accessed-test.cpp:87-109 *)
Example IsComparableToConstAndNonConstKeys :
  results [LNewKey 42 false; LNewInfo 42] [LOf 0 0 0; LEq 0 42; LNe 0 7; LNe 0 8; LNe 0 43] =
  Some [LNum 0; LBool true; LBool true; LBool true; LBool true].
Proof. vm_compute. reflexivity. Qed.

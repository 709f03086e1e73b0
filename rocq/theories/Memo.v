(** Model of client code: the memoised recursion of
    /repo/examples/fibonacci-basic.cpp:28-43, fibonacci-timed.cpp:31-46,
    statistics.cpp:28-43 and callbacks.cpp:28-43, and of [MyWebServer::get] in
    /repo/README.md:172-182.  All of them have the form

      if (cache.contains(key)) return cache.lookup(key);
      auto value = ...;                  // may call the function for other keys
      cache.emplace(key, value);
      return value;

    with [cache[key]] for [cache.lookup(key)] or [insert] for [emplace] (the
    library functions behind these pairs are the same, or differ as insert and
    emplace do in Model.v).

    Not modelled: the depth of the C++ stack ([depth] is a bound that the
    theorems take large enough). *)
From Coq Require Import List Arith ZArith Bool.
Import ListNotations.
From Verif Require Import Monad Types Model Api.
Set Implicit Arguments.
Local Open Scope cpp_scope.

Section Memo.
Context {K V : Type}.

(** How a value is computed: in the end a value is returned or an exception
    thrown; before that, the function may be called for other keys. *)
Inductive recipe : Type :=
| Give (v : V)
| Fail (n : nat)
| Need (k : K) (go_on : V -> recipe).

Variable E : env K V.
(** The function: for some keys the value is returned without looking into the
    cache ([if (n < 2) return 1;]), for the others it is computed. *)
Variable F : K -> V + recipe.
(** The insertion used: [Insert c] or [Emplace c]. *)
Variable put : K -> V -> op K V.

Notation M := (M (world K V)).

Fixpoint follow_recipe (ask : K -> M V) (b : recipe) : M V :=
  match b with
  | Give v => ret v
  | Fail n => throw (UserExn n)
  | Need k go_on => v <- ask k;; follow_recipe ask (go_on v)
  end.

(** fibonacci-basic.cpp:28-43 and the others *)
Fixpoint memo (depth : nat) (c : nat) (k : K) : M V :=
  match depth with
  | O => undef FuelExhausted
  | S depth =>
      match F k with
      | inl v => ret v
      | inr b =>
          hit <- exec E (Contains c k);;
          match hit with
          | RBool true =>
              r <- exec E (Lookup c k);;
              match r with RVal v => ret v | _ => undef DeadObject end
          | RBool false =>
              v <- follow_recipe (memo depth c) b;;
              exec E (put k v);;;
              ret v
          | _ => undef DeadObject
          end
      end
  end.

End Memo.
Arguments recipe : clear implicits.

(** statistics.cpp:28-43, callbacks.cpp:28-43: keys and values are
    std::uint64_t.  Keys are below 2^64 here; additions wrap around.  C++ leaves
    open which operand of [+] is evaluated first: [left_first n] tells whether
    [fibonacci(n - 1)] is when the argument is [n]. *)
Definition fibonacci (left_first : nat -> bool) (n : nat) : Z + recipe nat Z :=
  if Nat.ltb n 2 then inl 1%Z
  else inr (if left_first n
            then Need (n - 1) (fun x => Need (n - 2) (fun y => Give (wrap64 (x + y))))
            else Need (n - 2) (fun y => Need (n - 1) (fun x => Give (wrap64 (x + y))))).

(** README.md:172-182: the value is fetched without looking for other keys. *)
Definition server {K V} (fetch : K -> V + nat) (k : K) : V + recipe K V :=
  inr (match fetch k with inl v => Give v | inr n => Fail n end).

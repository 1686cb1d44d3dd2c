(** The place for upstream disposables is chosen at compile time from the type of the
    observable: /repo/src/rpp/rpp/observables/details/disposable_strategy.hpp:20-110,
    chain_strategy.hpp:30,76; the selectors named by each source and operator. *)
From Verif Require Import Base.

(** disposable_strategy.hpp:29-73: dynamic_disposable_strategy_selector<n, Mode>,
    default_disposable_strategy_selector, fixed_disposable_strategy_selector<n, Mode>. *)
Inductive selector :=
| SelDynamic (prealloc : nat) (atomic : bool)
| SelDefault
| SelFixed (n : nat) (atomic : bool).

(** [add<Count>]: 32-33, 45-46, 55-56, 64-66. *)
Definition sel_add (s : selector) (k : nat) : selector :=
  match s with
  | SelDynamic p a => SelDynamic (p + k) a
  | SelDefault => SelDefault
  | SelFixed 0 a => SelFixed k a
  | SelFixed n a => SelFixed (n + k) a
  end.

(** How many disposables the observer's own strategy holds ([disposable_strategy], 36, 49, 59,
    69; observers/details/fwd.hpp: bool_local_disposable_strategy is
    local_disposable_strategy<none_disposables_container, ..>; container.hpp:101-113 static and
    162-180 none: push_back throws). *)
Definition sel_cap (s : selector) : option nat :=
  match s with
  | SelDynamic _ _ => None
  | SelDefault => None
  | SelFixed n _ => Some n
  end.

(** How many disposables a composite disposable with [disposable_container] holds (35, 48, 58,
    68: fixed<0> takes the growing one). *)
Definition sel_container (s : selector) : option nat :=
  match s with
  | SelDynamic _ _ => None
  | SelDefault => None
  | SelFixed 0 _ => None
  | SelFixed (S n) _ => Some (S n)
  end.

(** The flag is an std::atomic_bool: 27, 36, 49, 59, 69. *)
Definition sel_atomic (s : selector) : bool :=
  match s with
  | SelDynamic _ a => a
  | SelDefault => true
  | SelFixed _ a => a
  end.

(** Operators whose observer hands every set_upstream on to its downstream observer and whose
    updated_disposable_strategy is Prev: buffer.hpp:61,84, delay.hpp:73-76,174 (observe_on too),
    distinct.hpp:45,66, distinct_until_changed.hpp:45,67, element_at.hpp:60,79,
    filter.hpp:41,63, first.hpp:41,60, last.hpp:49,68, map.hpp:40,62, reduce.hpp:44,66,97,119,
    scan.hpp:46,68,97,119, skip.hpp:43,62, subscribe_on.hpp:30,45, take.hpp:47,66,
    take_last.hpp:66,97, take_while.hpp:41,63, tap.hpp:53,78, throttle.hpp:48,68. *)
Inductive pass :=
| PBuffer | PDelay | PDistinct | PDistinctUntilChanged | PElementAt | PFilter | PFirst | PLast | PMap
| PReduce | PScan | PSkip | PSubscribeOn | PTake | PTakeLast | PTakeWhile | PTap | PThrottle.

(** Operators that hand one disposable of their own to the downstream observer and keep what
    they are given, in a growing composite: merge.hpp:32,66,147,164, concat.hpp:45,133,208,
    switch_on_next.hpp:75,118,126,152, group_by.hpp:79,85,180, window.hpp:45,86,127,
    window_toggle.hpp:153,180,207, retry.hpp:29,83,124, retry_when.hpp:33,82,119,158. *)
Inductive single :=
| GMerge | GConcat | GSwitch | GGroupBy | GWindow | GWindowToggle | GRetry | GRetryWhen.

(** Observables, by the types the library builds. *)
Inductive observable :=
| OSimple                        (* from, just, interval, empty, never, error: bool_disposable_strategy_selector *)
| OCreate                        (* create.hpp:22 with a lambda *)
| ODefer (o : observable)        (* defer.hpp:23-31, the observable the factory returns *)
| OConcat                        (* sources/concat.hpp (repeat, start_with) *)
| OSubject                       (* publish, behavior, replay subject: subject_state.hpp:75,100; a connectable observable *)
| OWindow                        (* the windows of window, window_toggle: forwarding_subject.hpp:45,63 *)
| OGroup                         (* the groups of group_by: group_by.hpp:140-158 *)
| ORefCount (o : observable)     (* connectable_observable.hpp:38-49, of the connectable observable [o] *)
| OBlocking (o : observable)     (* blocking_observable.hpp:51-72 *)
| ODynamic (o : observable)      (* dynamic_observable.hpp: no expected_disposable_strategy *)
| OVariant (o1 o2 : observable)  (* variant_observable.hpp: the same *)
| OPass (p : pass) (o : observable)
| OFinally (o : observable)      (* finally.hpp:29-39 *)
| ODebounce (o : observable)     (* debounce.hpp:117-120,157,169 *)
| OSingle (g : single) (o : observable)
| OCombine (os : observables) (o : observable)      (* zip, combine_latest: combining_strategy.hpp:54-57,93,109 *)
| OWithLatest (os : observables) (o : observable)   (* with_latest_from.hpp:33,57,92,143 *)
| OTakeUntil (n o : observable)                     (* take_until.hpp:65,106 *)
| OResume (f o : observable)                        (* on_error_resume_next.hpp:43,88,116; what the selector returns *)
| OTimeout (f o : observable)                       (* timeout.hpp:71-74,120-146; the fallback *)
with observables := ONil | OCons (o : observable) (os : observables).

(** expected_disposable_strategy. *)
Fixpoint expected (o : observable) : selector :=
  match o with
  | OSimple => SelFixed 0 false
  | OCreate => SelDefault
  | ODefer o => expected o
  | OConcat => SelDefault
  | OSubject => SelFixed 1 true
  | OWindow => sel_add (SelFixed 1 true) 1
  | OGroup => SelDefault
  | ORefCount o => sel_add (expected o) 1
  | OBlocking o => sel_add (expected o) 1
  | ODynamic _ => SelDefault
  | OVariant _ _ => SelDefault
  | OPass _ o => expected o
  | OFinally o => sel_add (expected o) 1
  | ODebounce o => sel_add (expected o) 1
  | OSingle _ _ => SelFixed 1 false
  | OCombine _ _ => SelDefault
  | OWithLatest _ _ => SelDefault
  | OTakeUntil _ _ => SelDefault
  | OResume _ _ => SelDefault
  | OTimeout _ _ => SelDefault
  end.

(** [calls o ls n]: one subscription to [o] may hand [n] disposables to the subscribed
    observer; [ls] lists the composite disposables of a fixed size created on the way (only
    timeout's own, timeout.hpp:125-131), with their size and how many disposables they were
    given.  A subscription may also stop before anything happens: observable.hpp:58. *)
Inductive calls : observable -> list (option nat * nat) -> nat -> Prop :=
| CSkip : forall o, calls o [] 0
| CCreate : forall n, calls OCreate [] n
| CDefer : forall o ls n, calls o ls n -> calls (ODefer o) ls n
| CConcat : calls OConcat [] 1
| CSubject : calls OSubject [] 1
| CWindow : forall r : bool, calls OWindow [] (if r then 2 else 1)
| CGroup : forall n, n <= 1 -> calls OGroup [] (1 + n)
| CRefCount : forall o ls n, calls o ls n -> calls (ORefCount o) ls (1 + n)
| CBlocking : forall o ls n, calls o ls n -> calls (OBlocking o) ls (1 + n)
| CDynamic : forall o ls n, calls o ls n -> calls (ODynamic o) ls n
| CVariant1 : forall o1 o2 ls n, calls o1 ls n -> calls (OVariant o1 o2) ls n
| CVariant2 : forall o1 o2 ls n, calls o2 ls n -> calls (OVariant o1 o2) ls n
| CPass : forall p o ls n, calls o ls n -> calls (OPass p o) ls n
| CFinally : forall o ls n, calls o ls n -> calls (OFinally o) ls (1 + n)
| CDebounce : forall o ls n, calls o ls n -> calls (ODebounce o) ls (1 + n)
| CSingle : forall g o ls n, calls o ls n -> calls (OSingle g o) ls 1
| CCombine : forall os o ls n ls' n', callss os ls n -> calls o ls' n' -> calls (OCombine os o) (ls ++ ls') (1 + n + n')
| CWithLatest : forall os o ls n ls' n', callss os ls n -> calls o ls' n' -> calls (OWithLatest os o) (ls ++ ls') 1
| CTakeUntil : forall u o ls n ls' n', calls u ls n -> calls o ls' n' -> calls (OTakeUntil u o) (ls ++ ls') (n + n')
| CResume : forall f o ls n ls' n', calls f ls n -> calls o ls' n' -> calls (OResume f o) (ls ++ ls') (n' + n)
| CTimeout : forall f o ls n ls' n', calls f ls n -> calls o ls' n' ->
    calls (OTimeout f o) ((sel_container (expected o), n') :: ls ++ ls') (1 + n)
with callss : observables -> list (option nat * nat) -> nat -> Prop :=
| CNil : callss ONil [] 0
| CCons : forall o os ls n ls' n', calls o ls n -> callss os ls' n' -> callss (OCons o os) (ls ++ ls') (n + n').

Scheme calls_mut := Minimality for calls Sort Prop
with callss_mut := Minimality for callss Sort Prop.

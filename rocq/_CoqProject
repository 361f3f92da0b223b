-Q theories Verif
theories/Lang.v
theories/SeqLogic.v
theories/Yields.v
theories/ConcLogic.v
theories/Soundness.v
theories/Adequacy.v
theories/Trace.v
theories/SafeLogic.v
theories/HappensBefore.v
theories/Weak.v
theories/SafeAdequacy.v
theories/Base.v
theories/Scalar.v
theories/Typed.v
theories/SeqOps.v
theories/ScalarFacts.v
theories/TypedPart.v
theories/TypedPivot.v
theories/TypedShort.v
theories/Calm.v
theories/ConcSort.v
theories/TypedLong.v
theories/CalmLong.v
theories/TypedSort.v
theories/CalmSort.v
theories/AnySeq.v
theories/AnySort.v
theories/Kinds.v
theories/Spec.v
theories/KindsFacts.v
theories/TypedApi.v
theories/CalmApi.v
theories/TypedCheck.v
theories/SearchFacts.v
theories/Lsw.v
theories/LswSeq.v
theories/LswPart.v
theories/LswLong.v
theories/LswSort.v
theories/CalmLsw.v
theories/Calls.v
theories/Guarantee.v
theories/Results.v
theories/TraceFacts.v
theories/AnyFacts.v
theories/Unique.v
theories/SeqAdequacy.v
theories/TypedFacts.v
theories/LswFacts.v
theories/ConcSplit.v
theories/WeakFacts.v
theories/Witness.v
theories/Forever.v
theories/Refute.v
theories/Swaps.v
theories/Holes.v
theories/TopFacts.v
theories/Examples.v
theories/ResultsEx.v
theories/Live.v
theories/Lookup.v
theories/Limit.v
theories/Many.v
theories/Bytes.v
theories/BytesFacts.v
theories/BytesEx.v
theories/Torn.v
theories/TornFacts.v
theories/TornTop.v
theories/TornEx.v
theories/Spread.v
theories/CalmTop.v
theories/CalmEx.v
theories/Slow.v
theories/SlowTyped.v
theories/SlowTop.v
theories/SlowLsw.v
theories/SlowEx.v
theories/Shared.v
theories/WeakAny.v
theories/Erase.v
theories/Blind.v
theories/Oracle.v
theories/OracleEx.v
theories/BlindTyped.v
theories/OracleTyped.v
theories/OracleTypedEx.v
theories/Endless.v
theories/Abandon.v
theories/AbandonEx.v
theories/Watch.v
theories/WatchEx.v
theories/TornWeak.v
theories/TornWeakFacts.v
theories/TornWeakTop.v
theories/TornWeakEx.v
theories/Veil.v
theories/VeilAdequacy.v
theories/VeilTyped.v
theories/Thin.v
theories/ThinTyped.v
theories/Sly.v
theories/SlyAdequacy.v
theories/SlyLsw.v
theories/ThinLsw.v
theories/ThinEx.v
theories/ThinRace.v
theories/Tally.v
theories/TallyTop.v
theories/Collect.v
theories/CollectTop.v
theories/CollectEx.v
theories/Vanish.v
theories/VanishEx.v
theories/Alike.v
theories/AlikeTop.v
theories/AlikeTyped.v
theories/AlikeEx.v
theories/Looks.v
theories/Cross.v
theories/CrossEx.v
theories/Values.v
theories/Properties.v

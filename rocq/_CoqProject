-Q theories Verif
theories/Arith.v
theories/IndexMap.v
theories/Bits.v
theories/Sim.v
theories/SimExp.v
theories/SimApply.v
theories/ArithF.v
theories/SimTests.v
theories/Cx.v
theories/Spec.v
theories/BitsLemmas.v
theories/ArithR.v
theories/QLib.v
theories/IndexMapLemmas.v
theories/StateLemmas.v
theories/Loc.v
theories/Abs.v
theories/Gates.v
theories/Gates2.v
theories/QSum.v
theories/Meas.v
theories/Reg.v
theories/SpecExp.v
theories/ExpLemmas.v
theories/SpecApply.v
theories/ApplyLemmas.v
theories/SpecRun.v
theories/SimRun.v
theories/SpecLemmas.v
theories/RunLemmas.v
theories/RunProps.v
theories/RunThms.v
theories/SimProps.v
theories/Misuse.v
theories/MisuseThms.v
theories/SpecIndexMap.v
theories/IndexMapThms.v
theories/P_IndexMap.v
theories/World.v
theories/SimEx.v
theories/P_Sim.v
theories/Text.v
theories/SpecText.v
theories/SpecOutput.v
theories/TextLemmas.v
theories/OutputThms.v
theories/P_Output.v
theories/Backend.v
theories/SpecBackend.v
theories/BackLemmas.v
theories/BackMath.v
theories/BackSem.v
theories/BackStore.v
theories/BackThms.v
theories/BackEx.v
theories/P_Backend.v
theories/Heap.v
theories/SpecHeap.v
theories/HeapLemmas.v
theories/HeapThms.v
theories/HeapCalls.v
theories/Captures.v
theories/HeapTuples.v
theories/QubitArray.v
theories/QubitArrayThms.v
theories/P_Heap.v
theories/SpecBig.v
theories/BigBytes.v
theories/P_BigBytes.v
theories/P_Tuple.v
theories/Runner.v
theories/SpecRunner.v
theories/RunnerThms.v
theories/RunnerLink.v
theories/RunnerEx.v
theories/P_Runner.v
theories/Math.v
theories/SpecMath.v
theories/MathThms.v
theories/MathEx.v
theories/P_Math.v
theories/SpecNear.v
theories/Near.v
theories/NearGates.v
theories/NearGates2.v
theories/NearExp.v
theories/NearRun.v
theories/NearThms.v
theories/NearRunEx.v
theories/P_Near.v
theories/SpecAny.v
theories/Any.v
theories/AnyRun.v
theories/P_Any.v
theories/SpecIdeal.v
theories/Ideal.v
theories/IdealEx.v
theories/P_Ideal.v
theories/SpecRound.v
theories/Round.v
theories/RoundGates.v
theories/RoundExp.v
theories/RoundReg.v
theories/RoundApply.v
theories/RoundRun.v
theories/RoundThms.v
theories/SpecLedger.v
theories/RoundMeas.v
theories/RoundLedger.v
theories/LedgerBound.v
theories/NearEx.v
theories/SpecRoundR.v
theories/RoundR.v
theories/Binary64.v
theories/SpecBinary64.v
theories/Binary64Lemmas.v
theories/Binary64Prob.v
theories/RoundEx.v
theories/P_Round.v
theories/LedgerEx.v
theories/P_Ledger.v
theories/NearApplyEx.v
theories/P_NearApply.v
theories/DoubleText.v
theories/SpecDouble.v
theories/DoubleThms.v
theories/DoubleShort.v
theories/P_Double.v
theories/Front.v
theories/SpecFront.v
theories/CliThms.v
theories/FrontThms.v
theories/FrontEx.v
theories/P_Front.v
theories/Listen.v
theories/SpecListen.v
theories/ListenThms.v
theories/P_Listen.v
theories/Nested.v
theories/SpecNested.v
theories/NestedThms.v
theories/P_Nested.v
theories/Memory.v
theories/SpecMemory.v
theories/MemoryThms.v
theories/P_Memory.v
theories/SpecChance.v
theories/Chance.v
theories/ChanceEx.v
theories/P_Chance.v
theories/SpecOdds.v
theories/Odds.v
theories/OddsEx.v
theories/P_Odds.v
theories/SpecString.v
theories/Strings.v
theories/Utf8.v
theories/StringThms.v
theories/P_String.v
theories/DumpText.v
theories/SpecDump.v
theories/DumpThms.v
theories/DumpRun.v
theories/P_Dump.v
theories/BackAny.v
theories/SpecShot.v
theories/BackAnyR.v
theories/Boxes.v
theories/Shot.v
theories/BackAny64.v
theories/ShotEx.v
theories/P_Shot.v
theories/SpecShots.v
theories/Shots.v
theories/ShotsEx.v
theories/P_Shots.v
theories/Args.v
theories/SpecArgs.v
theories/ArgsThms.v
theories/ArgsEx.v
theories/P_Args.v
theories/Mixed.v
theories/SpecMixed.v
theories/MixedThms.v
theories/TextSteps.v
theories/MixedEx.v
theories/P_Mixed.v
theories/Invoke.v
theories/SpecInvoke.v
theories/InvokeThms.v
theories/InvokeEx.v
theories/P_Invoke.v
theories/SpecCalled.v
theories/CalledThms.v
theories/CalledEx.v
theories/P_Called.v
theories/SpecSettled.v
theories/Settled.v
theories/SettledEx.v
theories/P_Settled.v
theories/AssertAny.v
theories/SpecAssert.v
theories/AssertThms.v
theories/P_Assert.v
theories/SpecClassical.v
theories/Classical.v
theories/SpecBits.v
theories/ClassicalThms.v
theories/P_Classical.v
theories/SpecKnown.v
theories/Known.v
theories/P_Known.v
theories/SpecIdle.v
theories/IdleThms.v
theories/IdleEx.v
theories/P_Idle.v
theories/SpecAlike.v
theories/AlikeThms.v
theories/AlikeEx.v
theories/P_Alike.v
theories/AlikeEx64.v
theories/P_Alike64.v
theories/SpecRewrite.v
theories/RewriteThms.v
theories/RewriteEx.v
theories/P_Rewrite.v
theories/RewriteEx64.v
theories/P_Rewrite64.v
theories/RewriteShots.v
theories/P_RewriteShots.v
theories/P_RewriteShots64.v
theories/DeferEx.v
theories/P_Defer.v
theories/ResultBool.v
theories/ResultThms.v
theories/P_Results.v

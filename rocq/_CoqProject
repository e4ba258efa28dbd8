-Q theories Verif
theories/Base.v
theories/Vec2d.v
theories/Item.v
theories/Heap.v
theories/Grammar.v
theories/BitMatrix.v
theories/DefaultGrammar.v
theories/Forest.v
theories/Recognizer.v
theories/Parse.v
theories/Wasm.v
theories/ExampleGrammars.v
theories/Spec.v
theories/Chart.v
theories/BaseProofs.v
theories/Vec2dProofs.v
theories/HeapProofs.v
theories/DataProofs.v
theories/PropsData.v
theories/ChartFacts.v
theories/Tables.v
theories/Core1.v
theories/Core2.v
theories/Den.v
theories/Core3.v
theories/Core4.v
theories/Drive.v
theories/ClientSpec.v
theories/Core5.v
theories/Uniq.v
theories/CyclicRun.v
theories/Core6.v
theories/SpecFacts.v
theories/ChartSpec.v
theories/TablesProofs.v
theories/CfgSpec.v
theories/Recog.v
theories/ForestSpec.v
theories/Sim.v
theories/RecogAny.v
theories/Drop.v
theories/Session.v
theories/SessionProofs.v
theories/RowsInv.v
theories/RecogFacts.v
theories/Shaped.v
theories/CyclicLive.v
theories/Cyclic.v
theories/Decide.v
theories/CyclicInput.v
theories/ParseFacts.v
theories/PredFacts.v
theories/Check.v
theories/TableFacts.v
theories/TablesTotal.v
theories/RemapFacts.v
theories/Cartesian.v
theories/CartesianSpec.v
theories/CartesianProofs.v
theories/PerfHint.v
theories/PerfHintProofs.v
theories/CompactGraph.v
theories/CompactGraphProofs.v
theories/PropLemmas.v
theories/PropLemmas2.v
theories/SimpleBocage.v
theories/CompactBocage.v
theories/CompactSpec.v
theories/TreeSpec.v
theories/EvalSpec.v
theories/ForestProg.v
theories/SimpleEval.v
theories/SimpleProofs.v
theories/SimpleValue.v
theories/ForestValue.v
theories/CompactProofs.v
theories/CompactEval.v
theories/CompactValue.v
theories/GroupSpec.v
theories/Groups.v
theories/UniqRoot.v
theories/Trees.v
theories/SimpleTop.v
theories/PropLemmas4.v
theories/PropLemmas3.v
theories/PropsForest.v
theories/PropsUtil.v
theories/PropsTables.v
theories/PropsRecog.v
theories/PropsTrees.v
theories/PropLemmas5.v
theories/PropsGroups.v
theories/ProbeSpec.v
theories/Probe.v
theories/Dead.v
theories/PropLemmas6.v
theories/PropsProbe.v
theories/CompactTop.v
theories/CompactForestSpec.v
theories/CompactMore.v
theories/CompactWhole.v
theories/RootTop.v
theories/PropsCompact.v
theories/PropsRoot.v
theories/PropsOrder.v
theories/ExampleMath.v
theories/MathTables.v
theories/PropLemmas7.v
theories/WasmSpec.v
theories/PropLemmas8.v
theories/MathSpec.v
theories/MathProofs.v
theories/ReadingSpec.v
theories/ReadingProofs.v
theories/PropsMath.v
theories/PropsReading.v
theories/PropsWasm.v
theories/FromGrammar.v
theories/CrateSpec.v
theories/CrateFacts.v
theories/GensymFacts.v
theories/CrateProcessed.v
theories/CratePanic.v
theories/CyclicEnds.v
theories/ExampleCycle.v
theories/UserSpec.v
theories/UserTreeSpec.v
theories/CrateTrees.v
theories/CrateOrdered.v
theories/PropLemmas9.v
theories/CyclicUser.v
theories/CyclicTrees.v
theories/PropsCyclic.v
theories/PropsCyclicTrees.v
theories/PropLemmas10.v
theories/UserRoot.v
theories/ReferenceCrate.v
theories/ReferenceShape.v
theories/ReferenceFacts.v
theories/CrateOrder.v
theories/Asymmetric.v
theories/ExampleCrate.v
theories/ExampleShort.v
theories/ExampleLong.v
theories/Cycle.v
theories/PropsUser.v
theories/PropsUserRoot.v
theories/CostSpec.v
theories/Cost.v
theories/CostTop.v
theories/PropsCost.v
theories/ShortInput.v
theories/PropsShort.v
theories/LRSpec.v
theories/RightRec.v
theories/RightRecTop.v
theories/LRFacts.v
theories/LinearGroups.v
theories/LinearRun.v
theories/LinearChart.v
theories/LinearTop.v
theories/Position.v
theories/LinearUser.v
theories/LinearProps.v
theories/LinearRef.v
theories/NullRec.v
theories/NullRecTop.v
theories/PropsLinear.v
theories/PropLemmas11.v
theories/PropsInterface.v
theories/ByHand.v
theories/PropsByHand.v
theories/ReuseSpec.v
theories/Reuse.v
theories/ReuseCompact.v
theories/ReuseParseSpec.v
theories/ReuseParse.v
theories/PropsReuse.v

-Q theories Verif
theories/Spec.v
theories/Num.v
theories/State.v
theories/Binary.v
theories/Population.v
theories/GaData.v
theories/Crossover.v
theories/Mutation.v
theories/Selection.v
theories/Penalty.v
theories/Fitness.v
theories/NewGeneration.v
theories/Driver.v
theories/ListLemmas.v
theories/Rnd.v
theories/BinaryProofs.v
theories/CodingProofs.v
theories/PropCoding.v
theories/Exec.v
theories/Laws.v
theories/CrossoverProofs.v
theories/Demo.v
theories/PropCrossover.v
theories/MutationProofs.v
theories/PropMutation.v
theories/PopulationProofs.v
theories/PropPopulation.v
theories/SelectionProofs.v
theories/TournamentProofs.v
theories/BalancedProofs.v
theories/RankProofs.v
theories/VegaProofs.v
theories/Float.v
theories/PropSelection.v
theories/PropProportional.v
theories/NewGenProofs.v
theories/PropNewGeneration.v
theories/UpdateProofs.v
theories/PropUpdate.v
theories/FitnessProofs.v
theories/AssessProofs.v
theories/StepProofs.v
theories/RunProofs.v
theories/HistoryProofs.v
theories/Runs.v
theories/PropRun.v
theories/Fuelless.v
theories/PropBest.v
theories/PropAverage.v
theories/PropFitness.v
theories/DomainProofs.v
theories/SafetyProofs.v
theories/OptimizeProofs.v
theories/PropDomain.v
theories/PropConditional.v
theories/MultiSafetyProofs.v
theories/PropMultiSafe.v
theories/PropMultiDomain.v
theories/PropPenalty.v
theories/PropSurvivor.v
theories/RankingProofs.v
theories/PropMulti.v
theories/MultiProofs.v
theories/MultiRuns.v
theories/PropPareto.v
theories/PropFfga.v
theories/SeedProofs.v
theories/LockstepProofs.v
theories/PropSeed.v
theories/RelProofs.v
theories/PropInvariance.v
theories/ClosureProofs.v
theories/PropClosure.v
theories/FuelProofs.v
theories/PropFuel.v
theories/PropResume.v
theories/PropArchive.v
theories/Chance.v
theories/ChanceProofs.v
theories/PropChance.v
theories/SelChanceProofs.v
theories/PropSelChance.v
theories/PropMutChance.v
theories/PropStatic.v
theories/PropMisuse.v
theories/PropOverflow.v
theories/PropBookkeeping.v
theories/PropSort.v
theories/Offsprings.v
theories/PropOffsprings.v
theories/ChanceRun.v
theories/ChanceRunProofs.v
theories/ConvergeProofs.v
theories/PropConverge.v
theories/CompareProofs.v
theories/PropTermination.v
theories/TrapProofs.v
theories/PropTrap.v
theories/MultiConvergeProofs.v
theories/PropMultiConverge.v
theories/LuckProofs.v
theories/TourLuck.v
theories/TourSteps.v
theories/TourPaths.v
theories/TourRun.v
theories/PropTour.v
theories/AnyRunProofs.v
theories/PropDoubleConverge.v
theories/PropSetup.v
theories/MultiAny.v
theories/PropDoubleMulti.v
theories/AgreeProofs.v
theories/PropAgree.v
theories/PropDoubleConditional.v
theories/PropShared.v
theories/Refill.v
theories/PropRefill.v
theories/PropVegaRanked.v
theories/CycleProofs.v
theories/PropCycle.v
theories/PeriodProofs.v
theories/PropPeriod.v
theories/PropMultiResume.v
theories/Report.v
theories/PropReport.v
theories/PropAssemble.v
theories/PropCriteria.v
theories/ReachProofs.v
theories/PropReach.v
theories/FloatProofs.v
theories/FloatDecode.v
theories/FloatEncode.v
theories/PropFloat.v
theories/PropDoubleCoding.v
theories/PropDoubleRun.v

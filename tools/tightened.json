{
 "P06": {
  "theorems": [
   "C75_slim_bias_rejected",
   "C75_slim_bias_error"
  ],
  "comment": "C08 speaks about models without bias when slim_eval is on, so it survives legitimately; property C75 was added, which this edit refutes"
 },
 "P12": {
  "theorems": [
   "C63_embedding_checked"
  ],
  "comment": "no claim spoke about the dimension check at the time; C63_embedding_checked was added"
 },
 "V13": {
  "theorems": [
   "C82_onehot",
   "C82_onehot_documented",
   "C82_onehot_rejects"
  ],
  "comment": "no claim covered onehot at the time; property C82 was added and the model extended to negative labels"
 },
 "T16": {
  "theorems": [
   "C38_constructor"
  ],
  "comment": "C38_constructor now states the shapes of the three tensors of a fresh TI_MPS"
 },
 "X31": {
  "theorems": [
   "C61_domain"
  ],
  "comment": "C61_domain was added: the domain of init_mlp_embed (default [0,1])"
 },
 "X38": {
  "theorems": [
   "C29_rejected"
  ],
  "comment": "C29_rejected was added: the shapes normal_init refuses"
 },
 "X20": {
  "theorems": [],
  "failed": [],
  "comment": "harmless: the edited branch is not reachable"
 },
 "Q08": {
  "theorems": [
   "C102_mlp_range"
  ],
  "comment": "C102_mlp_range spoke only about the mathematical perceptron; it now speaks about the tensor the embedding function returns, so this edit refutes it"
 },
 "S02": {
  "theorems": [
   "C25_batch_to",
   "C25_batch_to_error"
  ],
  "comment": "C25_batch_to and C25_batch_to_error were added: batch_to itself, not only batch_broadcast"
 }
}